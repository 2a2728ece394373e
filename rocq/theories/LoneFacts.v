(** LoneFacts: vertices without neighbours change neither the search nor the sequence of all_cliques (C104). *)
From Verif Require Import Base MUtils MGraph MEnum MApi MNW MNWEnum MNWApi MExt Spec SpecNW SpecCont SpecOrder SpecFirst SpecLone LoadFacts SearchProps EnumApi Samples OrderFacts FirstFacts LexFacts NWProps NWSame EnumCalls.
From Coq Require Import Sorting.Sorted Sorting.Permutation.
Local Open Scope nat_scope.

(** ** Graphs with the same edges *)
Section Ext.
  Variables (adj adj' : nat -> nat -> Prop).
  Hypothesis EA : forall u v, adj u v <-> adj' u v.

  Lemma degree_ext v d : degree adj v d <-> degree adj' v d.
  Proof. split; intros (l & N & H & L); exists l; (split; [exact N|]; split; [|exact L]; intros u; rewrite H; rewrite EA; tauto). Qed.

  Lemma first_ext c : first_at_1 adj c <-> first_at_1 adj' c.
  Proof. split; intros (I & H); (split; [exact I|]); intros u d1 du U D1 DU; apply (H u); auto; apply degree_ext; auto. Qed.

  Lemma opens_ext c v : opens adj c v <-> opens adj' c v.
  Proof. split; intros (I & H); (split; [exact I|]); intros u du dv U NE D1 DU; apply (H u); auto; apply degree_ext; auto. Qed.

  Lemma after_ext v u : comes_after adj v u <-> comes_after adj' v u.
  Proof. split; intros H du dv U V; apply H; apply degree_ext; auto. Qed.

  Lemma later_ext v k : later_neighbours adj v k <-> later_neighbours adj' v k.
  Proof. split; intros (l & N & H & L); exists l; (split; [exact N|]; split; [|exact L]; intros u; rewrite H, after_ext, EA; tauto). Qed.

  Lemma met_ext s cmp c d : met_before adj s cmp c d <-> met_before adj' s cmp c d.
  Proof. split; intros (v & v' & O & O' & X); exists v, v'; (split; [apply opens_ext; exact O|]; split; [apply opens_ext; exact O'|exact X]). Qed.

  Lemma listed_ext c d : listed_before adj c d <-> listed_before adj' c d.
  Proof. split; intros (v & v' & O & O' & X); exists v, v'; (split; [apply opens_ext; exact O|]; split; [apply opens_ext; exact O'|exact X]). Qed.
End Ext.

Lemma sorted_ext_rel {A} (R R' : A -> A -> Prop) : (forall x y, R x y -> R' x y) -> forall l, StronglySorted R l -> StronglySorted R' l.
Proof. intros H l S. induction S as [|x l S IH F]; constructor; auto. rewrite Forall_forall in *. intros y I. apply H, F, I. Qed.

Section Padded.
  Variables (n n' : nat) (adj adj' : nat -> nat -> Prop).
  Hypothesis PD : padded n n' adj adj'.

  Lemma padded_up c : clique n adj c -> clique n' adj' c.
  Proof. destruct PD as [L EA]. intros (C1 & C2 & C3). split; [exact C1|]. split; [intros v I; specialize (C2 v I); lia|]. intros u v U V N. apply EA; auto. Qed.

  Hypothesis SI : simple n adj.

  Lemma padded_down c : clique n' adj' c -> 2 <= length c -> clique n adj c.
  Proof.
    destruct PD as [L EA]. intros (C1 & C2 & C3) LE. split; [exact C1|]. split; [|intros u v U V N; apply EA; auto].
    intros v I. assert (X : exists u, In u c /\ u <> v).
    { destruct c as [|x [|y c]]; cbn [length] in LE; try lia. apply StronglySorted_inv in C1. destruct C1 as [_ F]. inversion F; subst.
      destruct (Nat.eq_dec x v) as [->|NE]; [exists y|exists x]; cbn; split; auto; lia. }
    destruct X as (u & U & NE). destruct (SI v u) as (_ & _ & R); [apply EA; auto|exact R].
  Qed.

  Lemma padded_richest s s' : richest n adj s -> richest n' adj' s' -> s = s'.
  Proof.
    destruct PD as [L EA]. intros (R & k & K & M1 & M2) (R' & k' & K' & M1' & M2'). apply (later_ext adj adj' EA) in K'.
    destruct (Nat.le_gt_cases s' n) as [LE|GT].
    - apply (richest_one n adj s s'); [split; [exact R|]; exists k; auto|]. split; [lia|]. exists k'. split; [exact K'|].
      split; intros v m V X; [apply M1' with v|apply M2' with v]; try lia; apply (later_ext adj adj' EA); auto.
    - exfalso. assert (E : k' = 0).
      { destruct K' as (l & _ & H & <-). destruct l as [|u l]; [reflexivity|]. destruct (proj1 (H u) (or_introl eq_refl)) as [A _]. destruct (SI s' u A) as (_ & _ & X). lia. }
      specialize (M2' s k ltac:(lia) (proj1 (later_ext adj adj' EA s k) K)). lia.
  Qed.
End Padded.

(** ** Graph *)
Section Graphs.
  Variables (p p' : pygraph) (n n' : nat) (adj adj' : nat -> nat -> Prop).
  Hypothesis PD : padded n n' adj adj'.
  Hypothesis M : made p n adj.
  Hypothesis M' : made p' n' adj'.
  Hypothesis LV : storage_live p.
  Hypothesis LV' : storage_live p'.

  Lemma lone_search e e' lb lb' ub ub' cont cont' q q' c c' : has_edge adj -> permutes e -> permutes e' ->
    (untimed e /\ untimed e' \/ ~ untimed e /\ ~ untimed e' /\ never_late e /\ never_late e') ->
    (forall d, clique n adj d -> length d <= ub) -> (forall d, clique n' adj' d -> length d <= ub') ->
    get_max_clique e p lb ub false true cont = Ok (q, Ret c) -> get_max_clique e' p' lb' ub' false true cont' = Ok (q', Ret c') -> c = c'.
  Proof.
    intros HE PE PE' T UB UB' E E'. destruct (list_eq_dec Nat.eq_dec c c') as [|NE]; auto. exfalso. destruct PD as [LN EA].
    assert (HE' : has_edge adj') by (destruct HE as (u & v & A); exists u, v; apply EA; auto).
    pose proof (made_simple p n adj M) as SI. destruct (edge_clique p n adj M HE) as (d2 & D2 & L2).
    assert (FIN : forall cmp : nat -> list nat -> list nat -> Prop, (forall v x y, cmp v x y -> cmp v y x -> False) ->
      (maximum_clique n adj c /\ exists s, richest n adj s /\ forall d, clique n adj d -> length d = length c -> d <> c -> met_before adj s cmp c d) ->
      (maximum_clique n' adj' c' /\ exists s, richest n' adj' s /\ forall d, clique n' adj' d -> length d = length c' -> d <> c' -> met_before adj' s cmp c' d) -> False).
    { intros cmp AS ([C1 C2] & s & R & H) ([C1' C2'] & s' & R' & H'). pose proof (C2 d2 D2).
      pose proof (C2' c (padded_up n n' adj adj' PD c C1)). pose proof (padded_down n n' adj adj' PD SI c' C1' ltac:(lia)) as C3. pose proof (C2 c' C3).
      assert (EL : length c = length c') by lia. pose proof (padded_richest n n' adj adj' PD SI s s' R R') as <-.
      refine (met_asym p n adj s cmp c c' M C1 C3 (fun v => AS v c c') (H c' C3 _ _) _); auto.
      apply (met_ext adj adj' EA). apply H'; auto. apply (padded_up n n' adj adj' PD); auto. }
    destruct T as [[T T']|(T & T' & NL & NL')].
    - apply (FIN lex_then_last last_asym); [apply (stack_first p n adj e lb ub cont q)|apply (stack_first p' n' adj' e' lb' ub' cont' q')]; auto.
    - apply (FIN (fun _ => lex) (fun _ => lex_asym)); [apply (recursion_first p n adj e lb ub cont q)|apply (recursion_first p' n' adj' e' lb' ub' cont' q')]; auto.
  Qed.

  Lemma lone_size e e' lb lb' ub ub' heur heur' cont cont' q q' c c' : has_edge adj -> permutes e -> permutes e' -> never_late e -> never_late e' ->
    (forall d, clique n adj d -> length d <= ub) -> (forall d, clique n' adj' d -> length d <= ub') ->
    get_max_clique e p lb ub heur true cont = Ok (q, Ret c) -> get_max_clique e' p' lb' ub' heur' true cont' = Ok (q', Ret c') -> length c = length c'.
  Proof.
    intros HE PE PE' NL NL' UB UB' E E'. assert (HE' : has_edge adj') by (destruct HE as (u & v & A); exists u, v; apply PD; auto).
    destruct (fresh_best p n adj e lb ub heur cont q c M HE LV PE NL UB E) as [C1 C2].
    destruct (fresh_best p' n' adj' e' lb' ub' heur' cont' q' c' M' HE' LV' PE' NL' UB' E') as [C1' C2'].
    destruct (edge_clique p n adj M HE) as (d2 & D2 & L2). pose proof (C2 d2 D2). pose proof (C2' c (padded_up n n' adj adj' PD c C1)).
    pose proof (C2 c' (padded_down n n' adj adj' PD (made_simple p n adj M) c' C1' ltac:(lia))). lia.
  Qed.

  Lemma lone_list lr lr' k : 1 <= n -> 2 <= k -> exists en0 en0' q en q' en' l, all_cliques p k = Ret en0 /\ all_cliques p' k = Ret en0'
    /\ (forall fuel, length l < fuel -> drain fuel lr p en0 = Ok (q, en, l)) /\ (forall fuel, length l < fuel -> drain fuel lr' p' en0' = Ok (q', en', l)).
  Proof.
    intros N K. pose proof (made_simple p n adj M) as SI. assert (N' : 1 <= n') by (destruct PD; lia).
    destruct (enumerated_exactly p n adj M LV lr k K) as (q & en & l & D & L). destruct (enumerated_exactly p' n' adj' M' LV' lr' k K) as (q' & en' & l' & D' & L').
    destruct (order_fresh p n adj lr k M LV) as (q1 & en1 & l1 & D1 & S1). destruct (order_fresh p' n' adj' lr' k M' LV') as (q2 & en2 & l2 & D2 & S2).
    destruct (drain_same _ _ _ _ _ _ _ _ _ D D1) as (<- & <- & <-). destruct (drain_same _ _ _ _ _ _ _ _ _ D' D2) as (<- & <- & <-).
    assert (EQ : l = l').
    { destruct (made_fresh p n adj M) as (a & cap & m & g0 & _ & GR & _). destruct PD as [LN EA]. apply (sorted_equal (listed_before adj)).
      - intros x y I J. apply L in I, J. apply (listed_asym a n adj GR); [apply I|apply J].
      - exact S1.
      - apply (sorted_ext_rel (listed_before adj')); [|exact S2]. intros x y. apply (listed_ext adj adj' EA).
      - intros d. rewrite L, L'. rewrite (first_ext adj adj' EA). split; intros (C & E & F); (split; [|auto]).
        + apply (padded_down n n' adj adj' PD SI); auto. lia.
        + apply (padded_up n n' adj adj' PD); auto. }
    subst l'. exists (new_enum k), (new_enum k), q, en, q', en', l. split; [apply (all_cliques_made p n adj M); auto|].
    split; [apply (all_cliques_made p' n' adj' M'); auto|]. auto.
  Qed.
End Graphs.

(** ** NWGraph *)
Section Weighted.
  Variables (rnd : Z -> Z) (p p' : pynw) (n n' : nat) (adj adj' : nat -> nat -> Prop) (w w' : list Z).
  Hypothesis PD : padded n n' adj adj'.
  Hypothesis SW : same_weights n w w'.
  Hypothesis M : nmade rnd p n adj w.
  Hypothesis M' : nmade rnd p' n' adj' w'.
  Hypothesis HE : has_edge adj.
  Hypothesis LV : nstorage_live p.
  Hypothesis LV' : nstorage_live p'.
  Hypothesis SE : sums_exact rnd w.
  Hypothesis SE' : sums_exact rnd w'.
  Hypothesis NN : nonnegative w.
  Hypothesis NN' : nonnegative w'.

  Lemma lone_edge : has_edge adj'.
  Proof. destruct HE as (u & v & A). exists u, v. apply PD. exact A. Qed.

  Lemma lone_weight c : (forall v, In v c -> 1 <= v <= n) -> weight w c = weight w' c.
  Proof. induction c as [|x c IH]; intros H; [reflexivity|]. cbn [weight]. rewrite IH by (intros; apply H; cbn; auto). rewrite SW by (apply H; cbn; auto). reflexivity. Qed.

  Lemma nsimple : simple n adj.
  Proof. destruct (nmade_made _ _ _ _ _ M) as [_ MD]. apply (made_simple _ _ _ MD). Qed.

  Lemma lone_heaviest e e' lb lb' ub ub' heur heur' c c' : npermutes e -> npermutes e' -> all_within n adj w ub -> all_within n' adj' w' ub' ->
    answer (nw_get_max_clique rnd e p lb ub heur true) = Ok (Ret c) -> answer (nw_get_max_clique rnd e' p' lb' ub' heur' true) = Ok (Ret c') ->
    2 <= length c -> 2 <= length c' -> weight w c = weight w' c'.
  Proof.
    intros PE PE' UB UB' A A' LC LC'.
    pose proof (nw_clique rnd p n adj w M HE LV p e lb ub heur true (nh_start rnd p) PE) as C.
    pose proof (nw_clique rnd p' n' adj' w' M' lone_edge LV' p' e' lb' ub' heur' true (nh_start rnd p') PE') as C'.
    pose proof (nw_heaviest rnd p n adj w M HE LV SE NN p e lb ub heur (or_introl eq_refl) PE UB) as K.
    pose proof (nw_heaviest rnd p' n' adj' w' M' lone_edge LV' SE' NN' p' e' lb' ub' heur' (or_introl eq_refl) PE' UB') as K'.
    destruct (nw_get_max_clique rnd e p lb ub heur true) as [[q1 r]| |]; cbn [answer ends_with] in *; try discriminate. injection A as ->.
    destruct (nw_get_max_clique rnd e' p' lb' ub' heur' true) as [[q2 r]| |]; cbn [answer ends_with] in *; try discriminate. injection A' as ->.
    destruct C as [[-> |C] _]; [cbn in LC; lia|]. destruct C' as [[-> |C'] _]; [cbn in LC'; lia|].
    pose proof (padded_down n n' adj adj' PD nsimple c' C' LC') as C2.
    specialize (K c' C2 LC'). specialize (K' c (padded_up n n' adj adj' PD c C) LC).
    rewrite <- (lone_weight c) in K' by apply C. rewrite (lone_weight c') in K by apply C2. lia.
  Qed.

  Lemma wdegree_lone v x : 1 <= v <= n -> wdegree adj w v x <-> wdegree adj' w' v x.
  Proof.
    intros V. pose proof nsimple as SI. destruct PD as [LN EA].
    assert (W : forall l, (forall u, In u l <-> u = v \/ adj v u) -> weight w l = weight w' l).
    { intros l H. apply lone_weight. intros u I. apply H in I. destruct I as [-> |A]; [exact V|]. apply SI in A. destruct A as (A & _). apply SI in A. apply A. }
    split; intros (l & N & H & ->); exists l; (split; [exact N|]).
    - split; [intros u; rewrite H, EA; tauto|]. auto.
    - assert (H2 : forall u, In u l <-> u = v \/ adj v u) by (intros u; rewrite H, EA; tauto). split; [exact H2|]. symmetry. auto.
  Qed.

  Lemma starts_lone d v : (forall u, In u d -> 1 <= u <= n) -> starts_at adj w d v <-> starts_at adj' w' d v.
  Proof.
    intros R. split; intros (I & H); (split; [exact I|]); intros u xv xu U NE XV XU; apply (H u); auto; apply wdegree_lone; auto.
  Qed.

  Lemma in_remove x y (d : list nat) : In x (remove Nat.eq_dec y d) -> In x d.
  Proof. intros I. apply in_remove in I. apply I. Qed.

  Lemma heavy_lone T d v : clique n adj d -> heavy_minimal n adj w T d v <-> heavy_minimal n' adj' w' T d v.
  Proof.
    intros C. pose proof (padded_up n n' adj adj' PD d C) as C'. assert (R : forall u, In u d -> 1 <= u <= n) by apply C.
    unfold heavy_minimal. rewrite (lone_weight d R), (starts_lone d v R).
    assert (X : forall u, weight w (remove Nat.eq_dec u d) = weight w' (remove Nat.eq_dec u d)) by (intros u; apply lone_weight; intros x I; apply R; eapply in_remove; eauto).
    split; intros (_ & L & TW & S & u & U & D); (split; [assumption|]; split; [exact L|]; split; [exact TW|]; split; [exact S|]; exists u; split; [exact U|]); [rewrite <- X|rewrite X]; exact D.
  Qed.

  Lemma lone_nw_list e e' T lr lr' : rises rnd -> exists en en' q x q' x' l, nw_all_cliques e p T = Ret en /\ nw_all_cliques e' p' T = Ret en'
    /\ (forall fuel, length l < fuel -> nw_drain rnd fuel lr p en = Ok (q, x, l)) /\ (forall fuel, length l < fuel -> nw_drain rnd fuel lr' p' en' = Ok (q', x', l)).
  Proof.
    intros RI.
    destruct (nw_lists rnd p n adj w M HE LV SE RI NN p e T lr (nu_start _ _ _ _ _)) as (en & q & x & l & E & D & S & C).
    destruct (nw_lists rnd p' n' adj' w' M' lone_edge LV' SE' RI NN' p' e' T lr' (nu_start _ _ _ _ _)) as (en' & q' & x' & l' & E' & D' & S' & C').
    assert (HV : forall d v, heavy_minimal n adj w T d v <-> heavy_minimal n' adj' w' T d v).
    { intros d v. split; intros H; pose proof H as (K & L & _).
      - apply heavy_lone; auto.
      - apply heavy_lone; auto. apply (padded_down n n' adj adj' PD nsimple); auto. }
    assert (EQ : l' = l).
    { apply (sorted_equal (nw_listed_before n adj w T)); auto.
      - intros y z _ _. apply (nw_listed_asym rnd p n adj w T y z M).
      - apply (sorted_ext_rel (nw_listed_before n' adj' w' T)); [|exact S']. intros y z (v & v' & H & H' & O). exists v, v'. rewrite !HV. auto.
      - intros d. rewrite C, C'. split; intros (v & H); exists v; revert H; rewrite HV; tauto. }
    subst l'. exists en, en', q, x, q', x', l. auto.
  Qed.
End Weighted.
