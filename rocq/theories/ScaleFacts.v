(** ScaleFacts: lemmas for C102. *)
From Verif Require Import Base MUtils MGraph MApi MEnum MExt MGen Spec SpecUnits SpecScale UnitFacts ExtSamples.
Local Open Scope nat_scope.

Section Scale.
  Variables (rnd : Z -> Z) (srt : list pdist -> list pdist) (c : Z).
  Hypothesis Hc : (0 < c)%Z.
  Hypothesis HR : respects c rnd.
  Hypothesis HS : only_compares srt.
  Notation pin := (pd_in c).

  Lemma rdz_map {A B} (f : A -> B) l i : rdz (map f l) i = omap f (rdz l i).
  Proof. unfold rdz. rewrite map_length, rd_map. destruct (_ <? _)%Z; reflexivity. Qed.

  Lemma sc_eqb x y : (c * x =? c * y)%Z = (x =? y)%Z.
  Proof. destruct (Z.eqb_spec x y); [apply Z.eqb_eq|apply Z.eqb_neq]; nia. Qed.

  Lemma bf2_loop_in fuel : forall a val beg fin loc, bf2_loop fuel (map pin a) (c * val) beg fin loc = bf2_loop fuel a val beg fin loc.
  Proof.
    induction fuel as [|fuel IH]; intros a val beg fin loc; [reflexivity|]. cbn [bf2_loop].
    destruct (_ <=? _)%Z; [|reflexivity]. rewrite rdz_map, bind_omap. apply bind_ext. intros x. cbn [pd_in d_dist].
    rewrite sc_eqb, (sc_ltb c Hc), !IH. reflexivity.
  Qed.

  Lemma find2_in a n val loc : binary_find2 (map pin a) n (c * val) loc = binary_find2 a n val loc.
  Proof.
    unfold binary_find2. generalize 65. intros fuel. rewrite rdz_map, bind_omap. apply bind_ext. intros x. cbn [pd_in d_dist]. rewrite (sc_ltb c Hc).
    destruct (_ <? _)%Z; [reflexivity|]. rewrite rdz_map, bind_omap. apply bind_ext. intros y. cbn [pd_in d_dist]. rewrite (sc_ltb c Hc), bf2_loop_in. reflexivity.
  Qed.

  Lemma collect_ext {X Y} (f g : X -> outcome (list Y)) l : (forall x, f x = g x) -> collect f l = collect g l.
  Proof. intros H. induction l as [|x l IH]; cbn [collect]; auto. rewrite H, IH. reflexivity. Qed.

  Lemma efr_loop_in turn s1 s2 n eps : (forall x y, turn (pin x) (pin y) = turn x y) -> forall idx lo hi,
    efr_loop rnd turn (map pin s1) (map pin s2) n (c * eps) idx lo hi = efr_loop rnd turn s1 s2 n eps idx lo hi.
  Proof.
    intros HT. induction idx as [|i idx IH]; intros lo hi; [reflexivity|]. cbn [efr_loop].
    rewrite rd_map, bind_omap. apply bind_ext. intros x. cbn zeta. change (d_dist (pin x)) with (c * d_dist x)%Z.
    replace (c * d_dist x - c * eps)%Z with (c * (d_dist x - eps))%Z by ring. rewrite HR.
    rewrite find2_in.
    apply bind_ext. intros [f1 l1]. destruct (_ =? _)%Z; [reflexivity|]. rewrite HR.
    replace (c * rnd (d_dist x - eps) + 2 * (c * eps))%Z with (c * (rnd (d_dist x - eps) + 2 * eps))%Z by ring. rewrite HR, find2_in.
    apply bind_ext. intros [f2 l2].
    rewrite (collect_ext (fun j => y <- rd (map pin s2) j;; turn (pin x) y) (fun j => y <- rd s2 j;; turn x y)).
    2:{ intros j. rewrite rd_map, bind_omap. apply bind_ext. intros y. apply HT. }
    apply bind_ext. intros r. rewrite IH. reflexivity.
  Qed.

  Definition rin (s : relset) : relset := mkR (rs_n s) (rs_sym s) (map pin (rs_dists s)).

  Lemma rows_in turn s1 s2 eps : (forall x y, turn (pin x) (pin y) = turn x y) ->
    relset_rows rnd turn (rin s1) (rin s2) (c * eps) = relset_rows rnd turn s1 s2 eps.
  Proof. intros HT. unfold relset_rows. cbn [rin rs_n rs_sym rs_dists]. destruct (_ || _); [reflexivity|]. cbn zeta. rewrite efr_loop_in by exact HT. reflexivity. Qed.

  Lemma fill_in sym n d : fill_dists srt sym n (metric_in c d) = omap rin (fill_dists srt sym n d).
  Proof.
    unfold fill_dists. rewrite omap_bind.
    assert (E0 : repeat (mkPD 0 0 0%Z) (dist_len sym n) = map pin (repeat (mkPD 0 0 0%Z) (dist_len sym n))).
    { generalize (dist_len sym n). intros k. induction k as [|k IH]; [reflexivity|]. cbn [repeat map]. rewrite <- IH. unfold pd_in. cbn [d_fst d_snd d_dist]. rewrite Z.mul_0_r. reflexivity. }
    set (h := fun x : list pdist * nat => (map pin (fst x), snd x)).
    rewrite E0 at 1. change (map pin (repeat (mkPD 0 0 0%Z) (dist_len sym n)), 0) with (h (repeat (mkPD 0 0 0%Z) (dist_len sym n), 0)).
    rewrite (for_map h) with (f := fun i s => for_ (if sym then i + 1 else 0) n
         (fun j '(l, count) => if j =? i then Ok (l, count) else l <- wr l count (mkPD i j (d i j));; Ok (l, count + 1)) s).
    - rewrite bind_omap. apply bind_ext. intros [l k]. unfold h. cbn [fst snd omap]. rewrite HS by exact Hc. reflexivity.
    - intros i s. apply for_map. intros j [l k]. unfold h. cbn [fst snd]. destruct (j =? i); [reflexivity|].
      change (mkPD i j (metric_in c d i j)) with (pin (mkPD i j (d i j))). rewrite wr_map, bind_omap, omap_bind. reflexivity.
  Qed.

  Lemma metric_units p S1 S2 eps : build_edges_metric_only_r rnd srt p (set_in c S1) (set_in c S2) (c * eps) = build_edges_metric_only_r rnd srt p S1 S2 eps.
  Proof.
    unfold build_edges_metric_only_r. cbn [set_in m_n m_sym m_d]. rewrite fill_in, bind_omap. apply bind_ext. intros s1.
    rewrite fill_in, bind_omap. apply bind_ext. intros s2. unfold edges_from_relsets_r. rewrite rows_in by reflexivity. reflexivity.
  Qed.

  Lemma both_units p S1 S2 eps f : build_edges_r rnd srt p (set_in c S1) (set_in c S2) (c * eps) f = build_edges_r rnd srt p S1 S2 eps f.
  Proof.
    unfold build_edges_r. cbn [set_in m_n m_sym m_d]. rewrite fill_in, bind_omap. apply bind_ext. intros s1.
    rewrite fill_in, bind_omap. apply bind_ext. intros s2. unfold efr_condition_r. rewrite rows_in by reflexivity. reflexivity.
  Qed.

  Section Gen.
    Context {E1 E2 : Type}.

    Lemma chosen1_in (g : gengraph E1 E2) : chosen1 (gen_in c g) = (option_map (metric_in c) (fst (chosen1 g)), snd (chosen1 g)).
    Proof. unfold chosen1. cbn [gen_in gg_d1 gg_sym1 gg_S1 gset_in gs_euclid]. destruct (gg_d1 g); reflexivity. Qed.

    Lemma chosen2_in (g : gengraph E1 E2) : chosen2 (gen_in c g) = (option_map (metric_in c) (fst (chosen2 g)), snd (chosen2 g)).
    Proof. unfold chosen2. cbn [gen_in gg_d1 gg_d2 gg_sym2 gg_S2 gset_in gs_euclid]. destruct (gg_d1 g), (gg_d2 g); reflexivity. Qed.

    Definition ein (r : exc relset) : exc relset := match r with Ret s => Ret (rin s) | Raise e => Raise e end.

    Lemma fill_chosen_in o b n : fill_chosen srt (option_map (metric_in c) o, b) n = omap ein (fill_chosen srt (o, b) n).
    Proof.
      unfold fill_chosen. cbn [fst snd]. destruct o as [f|]; cbn [option_map].
      - rewrite fill_in, bind_omap, omap_bind. reflexivity.
      - destruct (n <? 2); [|reflexivity].
        rewrite omap_bind. transitivity (r <- fill_dists srt b n (metric_in c (fun _ _ => 0%Z));; Ok (Ret r)).
        + unfold fill_dists, metric_in. rewrite Z.mul_0_r. reflexivity.
        + rewrite fill_in, bind_omap. reflexivity.
    Qed.

    Definition gin (r : exc (gengraph E1 E2)) : exc (gengraph E1 E2) := match r with Ret g => Ret (gen_in c g) | Raise e => Raise e end.

    Lemma gen_fill_in g x x' : (forall s1 s2, x' (rin s1) (rin s2) = x s1 s2) -> gen_fill srt (gen_in c g) x' = omap gin (gen_fill srt g x).
    Proof.
      intros HX. unfold gen_fill. rewrite chosen1_in, chosen2_in.
      change (len1 (gen_in c g)) with (len1 g). change (len2 (gen_in c g)) with (len2 g). change (gg_graph (gen_in c g)) with (gg_graph g).
      destruct (chosen1 g) as [o1 b1], (chosen2 g) as [o2 b2]. cbn [fst snd].
      rewrite fill_chosen_in, bind_omap, omap_bind. apply bind_ext. intros [s1|e]; cbn [ein]; [|reflexivity].
      rewrite fill_chosen_in, bind_omap, omap_bind. apply bind_ext. intros [s2|e]; cbn [ein]; [|reflexivity].
      rewrite HX, omap_bind. apply bind_ext. intros [rows|e]; [|reflexivity]. rewrite omap_bind. apply bind_ext. intros q. reflexivity.
    Qed.

    Lemma gen_units g r : gen_build_edges_r (E1 := E1) (E2 := E2) rnd srt g = Ok r -> gen_build_edges_r rnd srt (gen_in c g) = Ok (gin r).
    Proof.
      intros E. unfold gen_build_edges_r in *. rewrite (gen_fill_in g (fun s1 s2 => edges_from_relsets_r rnd s1 s2 (gg_eps g))).
      - rewrite E. reflexivity.
      - intros s1 s2. unfold edges_from_relsets_r. apply rows_in. reflexivity.
    Qed.

    Lemma gen_condition_units g f only r : gen_build_with_condition_r (E1 := E1) (E2 := E2) rnd srt g f only = Ok r ->
      gen_build_with_condition_r rnd srt (gen_in c g) f only = Ok (gin r).
    Proof.
      intros E. unfold gen_build_with_condition_r in *. destruct only.
      - change (len1 (gen_in c g)) with (len1 g). change (len2 (gen_in c g)) with (len2 g). change (gg_graph (gen_in c g)) with (gg_graph g).
        destruct (build_edges_condition_only (gg_graph g) (len1 g) (len2 g) f) as [[q|e]| |]; cbn [bind] in *; try discriminate; injection E as <-; reflexivity.
      - rewrite (gen_fill_in g (fun s1 s2 => efr_condition_r rnd s1 s2 (gg_eps g) f)).
        + rewrite E. reflexivity.
        + intros s1 s2. unfold efr_condition_r. apply rows_in. reflexivity.
    Qed.
  End Gen.
End Scale.

Section Search.
  Context {E1 E2 : Type}.
  Variables (c : Z) (g : gengraph E1 E2).

  Lemma indices_units e lb ub heur dfs cont : answer (gen_get_indices e (gen_in c g) lb ub heur dfs cont) = answer (gen_get_indices e g lb ub heur dfs cont).
  Proof.
    unfold gen_get_indices. change (len2 (gen_in c g)) with (len2 g). change (gg_graph (gen_in c g)) with (gg_graph g).
    destruct (get_correspondence e (gg_graph g) (len2 g) lb ub heur dfs cont) as [[q r]| |]; reflexivity.
  Qed.

  Lemma elements_units e lb ub heur dfs cont : answer (gen_get_elements e (gen_in c g) lb ub heur dfs cont) = answer (gen_get_elements e g lb ub heur dfs cont).
  Proof.
    unfold gen_get_elements, gen_get_indices. change (len2 (gen_in c g)) with (len2 g). change (gg_graph (gen_in c g)) with (gg_graph g).
    destruct (get_correspondence e (gg_graph g) (len2 g) lb ub heur dfs cont) as [[q [ab|x]]| |]; reflexivity.
  Qed.
End Search.

Lemma search_in_units {E1 E2} rnd srt c : (0 < c)%Z -> respects c rnd -> only_compares srt -> forall (g : gengraph E1 E2) b, gen_build_edges_r rnd srt g = Ok (Ret b) ->
  exists b', gen_build_edges_r rnd srt (gen_in c g) = Ok (Ret b') /\ forall e lb ub heur dfs cont,
    answer (gen_get_indices e b' lb ub heur dfs cont) = answer (gen_get_indices e b lb ub heur dfs cont)
    /\ answer (gen_get_elements e b' lb ub heur dfs cont) = answer (gen_get_elements e b lb ub heur dfs cont).
Proof.
  intros Hc HR HS g b E. exists (gen_in c b). split; [exact (gen_units rnd srt c Hc HR HS g (Ret b) E)|]. intros. split; [apply indices_units|apply elements_units].
Qed.

Lemma gen_fails {E1 E2} rnd srt c : (0 < c)%Z -> respects c rnd -> only_compares srt -> forall (g : gengraph E1 E2) x, gen_build_edges_r rnd srt g = Ok (Raise x) ->
  gen_build_edges_r rnd srt (gen_in c g) = Ok (Raise x).
Proof. intros Hc HR HS g x E. exact (gen_units rnd srt c Hc HR HS g (Raise x) E). Qed.

Lemma condition_in_units {E1 E2} rnd srt c : (0 < c)%Z -> respects c rnd -> only_compares srt -> forall (g : gengraph E1 E2) f only b,
  gen_build_with_condition_r rnd srt g f only = Ok (Ret b) ->
  exists b', gen_build_with_condition_r rnd srt (gen_in c g) f only = Ok (Ret b') /\ forall e lb ub heur dfs cont,
    answer (gen_get_indices e b' lb ub heur dfs cont) = answer (gen_get_indices e b lb ub heur dfs cont)
    /\ answer (gen_get_elements e b' lb ub heur dfs cont) = answer (gen_get_elements e b lb ub heur dfs cont).
Proof.
  intros Hc HR HS g f only b E. exists (gen_in c b). split; [exact (gen_condition_units rnd srt c Hc HR HS g f only (Ret b) E)|]. intros. split; [apply indices_units|apply elements_units].
Qed.

Lemma pd_sort_compares : only_compares pd_sort.
Proof.
  intros c l Hc. induction l as [|x l IH]; [reflexivity|]. cbn [map]. unfold pd_sort in *. cbn [fold_right]. rewrite IH.
  generalize (fold_right pd_insert [] l). clear l IH. intros l. induction l as [|y l IH]; [reflexivity|]. cbn [map pd_insert].
  change (d_dist (pd_in c x)) with (c * d_dist x)%Z. change (d_dist (pd_in c y)) with (c * d_dist y)%Z. rewrite (sc_leb c Hc).
  destruct (_ <=? _)%Z; cbn [map]; [reflexivity|]. rewrite IH. reflexivity.
Qed.

Lemma exact_respects c : respects c exact.
Proof. intros x. reflexivity. Qed.
