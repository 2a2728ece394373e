(** BesideFacts: two graphs side by side (C108). *)
From Verif Require Import Base MUtils MGraph MEnum MApi MNW MNWEnum MNWApi MExt Spec SpecNW SpecCont SpecOrder SpecFirst SpecLone SpecBeside LoadFacts SearchProps EnumApi SetFacts SortFacts ContFacts Samples OrderFacts FirstFacts LexFacts NWProps NWSame EnumCalls LoneFacts.
From Coq Require Import Sorting.Sorted Sorting.Permutation.
Local Open Scope nat_scope.

Lemma shift_in m c v : In v (shift m c) <-> exists x, In x c /\ v = m + x.
Proof. unfold shift. rewrite in_map_iff. split; intros (x & A & B); exists x; auto. Qed.

Lemma shift_sorted m c : StronglySorted lt (shift m c) <-> StronglySorted lt c.
Proof.
  unfold shift. induction c as [|x c IH]; cbn; [split; constructor|]. split; intros S; apply StronglySorted_inv in S; destruct S as [S F]; constructor; try (apply IH; exact S);
    rewrite Forall_forall in *.
  - intros y I. specialize (F (m + y) (in_map _ _ _ I)). lia.
  - intros y I. apply in_map_iff in I. destruct I as (z & <- & I). specialize (F z I). lia.
Qed.

Lemma shift_back m c : (forall v, In v c -> m < v) -> exists d, c = shift m d.
Proof.
  intros H. exists (map (fun v => v - m) c). unfold shift. rewrite map_map. rewrite <- (map_id c) at 1. apply map_ext_in. intros v I. specialize (H v I). lia.
Qed.

Lemma shift_inj m c d : shift m c = shift m d -> c = d.
Proof. unfold shift. revert d. induction c as [|x c IH]; intros [|y d] E; cbn in E; try discriminate; [reflexivity|]. injection E as E1 E2. f_equal; [lia|auto]. Qed.

Lemma lex_shift m c d : lex c d -> lex (shift m c) (shift m d).
Proof. intros L. induction L; cbn; [apply lex_here; lia|apply lex_end|apply lex_later; exact IHL]. Qed.

Section Beside.
  Variables (n1 n2 : nat) (adj1 adj2 adj : nat -> nat -> Prop).
  Hypothesis B : beside n1 adj1 adj2 adj.
  Hypothesis S1 : simple n1 adj1.
  Hypothesis S2 : simple n2 adj2.

  Lemma left_adj u v : u <= n1 -> adj u v <-> adj1 u v.
  Proof.
    intros L. rewrite (B u v). split; [|auto]. intros [A|(x & y & E & _ & A)]; [exact A|]. destruct (S2 x y A) as (_ & _ & R). lia.
  Qed.

  Lemma right_adj x v : 1 <= x -> adj (n1 + x) v <-> exists y, v = n1 + y /\ adj2 x y.
  Proof.
    intros L. rewrite (B (n1 + x) v). split.
    - intros [A|(x' & y & E & -> & A)]; [destruct (S1 _ _ A) as (_ & _ & R); lia|]. exists y. replace x with x' by lia. auto.
    - intros (y & -> & A). right. exists x, y. auto.
  Qed.

  Lemma clique_left c : clique n1 adj1 c -> clique (n1 + n2) adj c.
  Proof. intros (C1 & C2 & C3). split; [exact C1|]. split; [intros v I; specialize (C2 v I); lia|]. intros u v U V N. apply B. auto. Qed.

  Lemma clique_right c : clique n2 adj2 c <-> clique (n1 + n2) adj (shift n1 c) /\ forall v, In v c -> 1 <= v.
  Proof.
    split.
    - intros (C1 & C2 & C3). split; [|intros v I; specialize (C2 v I); lia]. split; [apply shift_sorted; exact C1|]. split.
      + intros v I. apply shift_in in I. destruct I as (x & I & ->). specialize (C2 x I). lia.
      + intros u v U V N. apply shift_in in U, V. destruct U as (x & U & ->), V as (y & V & ->). apply B. right. exists x, y.
        split; [reflexivity|]. split; [reflexivity|]. apply C3; auto.
    - intros ((C1 & C2 & C3) & P). apply shift_sorted in C1. split; [exact C1|]. split.
      + intros v I. specialize (C2 (n1 + v)). specialize (P v I). rewrite shift_in in C2. specialize (C2 (ex_intro _ v (conj I eq_refl))). lia.
      + intros u v U V N. specialize (C3 (n1 + u) (n1 + v)). rewrite !shift_in in C3.
        specialize (C3 (ex_intro _ u (conj U eq_refl)) (ex_intro _ v (conj V eq_refl)) ltac:(lia)).
        apply right_adj in C3; [|apply P; auto]. destruct C3 as (y & E & A). replace v with y by lia. exact A.
  Qed.

  Lemma clique_split c : clique (n1 + n2) adj c -> clique n1 adj1 c \/ exists d, clique n2 adj2 d /\ c = shift n1 d.
  Proof.
    intros C. pose proof C as (C1 & C2 & C3). destruct (existsb (fun v => v <=? n1) c) eqn:EX.
    - left. apply existsb_exists in EX. destruct EX as (u & U & L). apply Nat.leb_le in L.
      assert (R : forall v, In v c -> v <= n1).
      { intros v V. destruct (Nat.eq_dec u v) as [<-|NE]; [exact L|]. specialize (C3 u v U V NE). apply left_adj in C3; [|exact L].
        destruct (S1 u v C3) as (X & _). destruct (S1 v u X) as (_ & _ & Y). lia. }
      split; [exact C1|]. split; [intros v V; specialize (C2 v V); specialize (R v V); lia|]. intros x y X Y N. apply left_adj; auto.
    - right. assert (R : forall v, In v c -> n1 < v).
      { intros v V. destruct (Nat.le_gt_cases v n1) as [L|L]; [|exact L]. assert (E : existsb (fun v => v <=? n1) c = true) by (apply existsb_exists; exists v; split; [exact V|apply Nat.leb_le; exact L]).
        rewrite E in EX. discriminate. }
      destruct (shift_back n1 c R) as (d & ->). exists d. split; [|reflexivity]. apply clique_right. split; [exact C|].
      intros v I. specialize (R (n1 + v)). rewrite shift_in in R. specialize (R (ex_intro _ v (conj I eq_refl))). lia.
  Qed.

  Lemma degree_left v d : v <= n1 -> degree adj v d <-> degree adj1 v d.
  Proof. intros L. split; intros (l & N & H & E); exists l; (split; [exact N|]; split; [|exact E]); intros u; rewrite H; rewrite left_adj by exact L; tauto. Qed.

  Lemma degree_right x d : 1 <= x -> degree adj (n1 + x) d <-> degree adj2 x d.
  Proof.
    intros L. split; intros (l & N & H & E).
    - assert (R : forall v, In v l -> n1 < v).
      { intros v I. apply H in I. apply right_adj in I; [|exact L]. destruct I as (y & -> & A). destruct (S2 _ _ A) as (A' & _). destruct (S2 _ _ A') as (_ & _ & X). lia. }
      destruct (shift_back n1 l R) as (l2 & ->). exists l2. split; [unfold shift in N; apply NoDup_map_inv in N; exact N|]. unfold shift in E. rewrite map_length in E. split; [|exact E].
      intros u. split.
      + intros I. assert (J : adj (n1 + x) (n1 + u)) by (apply H; apply shift_in; exists u; auto). apply right_adj in J; [|exact L].
        destruct J as (y & E2 & A). replace u with y by lia. exact A.
      + intros A. assert (J : In (n1 + u) (shift n1 l2)) by (apply H; apply right_adj; [exact L|]; exists u; auto). apply shift_in in J. destruct J as (y & I & E2).
        replace u with y by lia. exact I.
    - exists (shift n1 l). unfold shift. rewrite map_length. split; [apply FinFun.Injective_map_NoDup; [intros a b; lia|exact N]|]. split; [|exact E].
      intros u. change (map (Nat.add n1) l) with (shift n1 l). rewrite shift_in, right_adj by exact L. split.
      + intros (y & Y & ->). exists y. split; [reflexivity|apply H; exact Y].
      + intros (y & -> & Y). exists y. split; [apply H; exact Y|reflexivity].
  Qed.

  Lemma opens_left c v : (forall u, In u c -> u <= n1) -> opens adj c v <-> opens adj1 c v.
  Proof. intros R. split; intros (I & H); (split; [exact I|]); intros u du dv U NE DU DV; apply (H u); auto; apply degree_left; auto. Qed.

  Lemma opens_right c v : (forall u, In u c -> 1 <= u) -> opens adj2 c v -> opens adj (shift n1 c) (n1 + v).
  Proof.
    intros R (I & H). split; [apply shift_in; exists v; auto|]. intros u du dv U NE DU DV. apply shift_in in U. destruct U as (x & X & ->).
    apply degree_right in DU, DV; auto. destruct (H x du dv X ltac:(lia) DU DV); [left|right]; lia.
  Qed.

  Lemma first_left c : clique n1 adj1 c -> first_at_1 adj c <-> first_at_1 adj1 c.
  Proof.
    intros (_ & C2 & _). split; intros (I & H); (split; [exact I|]); intros u d1 du U D1 DU; apply (H u); auto; apply degree_left; auto;
      try (specialize (C2 u U); lia); specialize (C2 1 I); lia.
  Qed.

  Lemma not_first_right c : 1 <= n1 -> clique n2 adj2 c -> ~ first_at_1 adj (shift n1 c).
  Proof. intros L (_ & C2 & _) (I & _). apply shift_in in I. destruct I as (x & I & E). specialize (C2 x I). lia. Qed.
End Beside.

Lemma first_opens n adj d : clique n adj d -> first_at_1 adj d -> opens adj d 1.
Proof. intros (_ & C2 & _) (I & H). split; [exact I|]. intros u du dv U NE DU DV. specialize (H u dv du U DV DU). specialize (C2 u U). lia. Qed.

Lemma opens_first adj d : opens adj d 1 -> first_at_1 adj d.
Proof.
  intros (I & H). split; [exact I|]. intros u d1 du U D1 DU. destruct (Nat.eq_dec u 1) as [->|NE].
  - rewrite (degree_fun adj 1 d1 du D1 DU). lia.
  - destruct (H u du d1 U NE DU D1); lia.
Qed.

(** ** Graph *)
Section Graphs.
  Variables (p1 p2 p : pygraph) (n1 n2 : nat) (adj1 adj2 adj : nat -> nat -> Prop).
  Hypothesis B : beside n1 adj1 adj2 adj.
  Hypothesis M1 : made p1 n1 adj1.
  Hypothesis M2 : made p2 n2 adj2.
  Hypothesis M : made p (n1 + n2) adj.
  Hypothesis LV1 : storage_live p1.
  Hypothesis LV2 : storage_live p2.
  Hypothesis LV : storage_live p.

  Lemma beside_size e1 e2 e lb1 lb2 lb ub1 ub2 ub heur1 heur2 heur cont1 cont2 cont q1 q2 q c1 c2 c : has_edge adj1 -> has_edge adj2 ->
    permutes e1 -> permutes e2 -> permutes e -> never_late e1 -> never_late e2 -> never_late e ->
    (forall d, clique n1 adj1 d -> length d <= ub1) -> (forall d, clique n2 adj2 d -> length d <= ub2) -> (forall d, clique (n1 + n2) adj d -> length d <= ub) ->
    get_max_clique e1 p1 lb1 ub1 heur1 true cont1 = Ok (q1, Ret c1) -> get_max_clique e2 p2 lb2 ub2 heur2 true cont2 = Ok (q2, Ret c2) ->
    get_max_clique e p lb ub heur true cont = Ok (q, Ret c) -> length c = Nat.max (length c1) (length c2).
  Proof.
    intros H1 H2 P1 P2 P T1 T2 T U1 U2 U E1 E2 E.
    assert (HE : has_edge adj) by (destruct H1 as (u & v & A); exists u, v; apply B; auto).
    destruct (fresh_best p1 n1 adj1 e1 lb1 ub1 heur1 cont1 q1 c1 M1 H1 LV1 P1 T1 U1 E1) as [C1 X1].
    destruct (fresh_best p2 n2 adj2 e2 lb2 ub2 heur2 cont2 q2 c2 M2 H2 LV2 P2 T2 U2 E2) as [C2 X2].
    destruct (fresh_best p (n1 + n2) adj e lb ub heur cont q c M HE LV P T U E) as [C X].
    pose proof (made_simple p1 n1 adj1 M1) as S1. pose proof (made_simple p2 n2 adj2 M2) as S2.
    pose proof (X c1 (clique_left n1 n2 adj1 adj2 adj B c1 C1)).
    pose proof (X (shift n1 c2) (proj1 (proj1 (clique_right n1 n2 adj1 adj2 adj B S1 c2) C2))) as Y. unfold shift in Y. rewrite map_length in Y.
    destruct (clique_split n1 n2 adj1 adj2 adj B S1 S2 c C) as [K|(d & K & ->)].
    - pose proof (X1 c K). lia.
    - pose proof (X2 d K). unfold shift in *. rewrite map_length in *. lia.
  Qed.

  Lemma beside_list lr1 lr2 lr k : 1 <= n1 -> 1 <= n2 -> 2 <= k -> exists a1 a2 a q1 en1 l1 q2 en2 l2 q en l x,
    all_cliques p1 k = Ret a1 /\ all_cliques p2 k = Ret a2 /\ all_cliques p k = Ret a
    /\ (forall fuel, length l1 < fuel -> drain fuel lr1 p1 a1 = Ok (q1, en1, l1)) /\ (forall fuel, length l2 < fuel -> drain fuel lr2 p2 a2 = Ok (q2, en2, l2))
    /\ (forall fuel, length l < fuel -> drain fuel lr p a = Ok (q, en, l))
    /\ l = l1 ++ map (shift n1) (x ++ l2) /\ forall d, In d x <-> clique n2 adj2 d /\ length d = k /\ first_at_1 adj2 d.
  Proof.
    intros N1 N2 K. pose proof (made_simple p1 n1 adj1 M1) as S1. pose proof (made_simple p2 n2 adj2 M2) as S2.
    destruct (enumerated_exactly p1 n1 adj1 M1 LV1 lr1 k K) as (q1 & en1 & l1 & D1 & L1). destruct (order_fresh p1 n1 adj1 lr1 k M1 LV1) as (? & ? & ? & DD & O1).
    destruct (drain_same _ _ _ _ _ _ _ _ _ D1 DD) as (<- & <- & <-). clear DD.
    destruct (enumerated_exactly p2 n2 adj2 M2 LV2 lr2 k K) as (q2 & en2 & l2 & D2 & L2). destruct (order_fresh p2 n2 adj2 lr2 k M2 LV2) as (? & ? & ? & DD & O2).
    destruct (drain_same _ _ _ _ _ _ _ _ _ D2 DD) as (<- & <- & <-). clear DD.
    destruct (enumerated_exactly p (n1 + n2) adj M LV lr k K) as (q & en & l & D & L). destruct (order_fresh p (n1 + n2) adj lr k M LV) as (? & ? & ? & DD & O).
    destruct (drain_same _ _ _ _ _ _ _ _ _ D DD) as (<- & <- & <-). clear DD.
    destruct (made_fresh p (n1 + n2) adj M) as (a & cap & m & g0 & _ & GR & _). destruct (made_fresh p2 n2 adj2 M2) as (a2 & cap2 & m2 & g2 & _ & GR2 & _).
    set (dec := list_eq_dec Nat.eq_dec).
    set (keep := fun d => if in_dec dec d l1 then false else if in_dec dec d (map (shift n1) l2) then false else true).
    set (x := map (map (fun v => v - n1)) (filter keep l)).
    assert (NE : forall d : list nat, length d = k -> d <> []) by (intros d E ->; cbn in E; lia).
    assert (KX : forall d, In d (filter keep l) <-> exists d2, d = shift n1 d2 /\ clique n2 adj2 d2 /\ length d2 = k /\ first_at_1 adj2 d2).
    { intros d. rewrite filter_In. unfold keep. split.
      - intros (I & KE). destruct (in_dec dec d l1) as [|X1]; [discriminate|]. destruct (in_dec dec d (map (shift n1) l2)) as [|X2]; [discriminate|].
        apply L in I. destruct I as (C & E & F). destruct (clique_split n1 n2 adj1 adj2 adj B S1 S2 d C) as [C1|(d2 & C2 & ->)].
        + destruct X1. apply L1. split; [exact C1|]. split; [exact E|]. intros F1. apply F. apply (first_left n1 n2 adj1 adj2 adj B S2 d C1). exact F1.
        + unfold shift in E. rewrite map_length in E. exists d2. split; [reflexivity|]. split; [exact C2|]. split; [exact E|].
          destruct (root_opens a2 n2 adj2 GR2 d2 C2 (NE d2 E)) as (v & _ & V & OV & _). destruct (Nat.eq_dec v 1) as [->|NV]; [apply opens_first; exact OV|].
          exfalso. apply X2. apply in_map. apply L2. split; [exact C2|]. split; [exact E|]. intros F2. apply (first_opens n2 adj2 d2 C2) in F2.
          apply NV. apply (opens_one a2 n2 adj2 GR2 d2 v 1); auto.
      - intros (d2 & -> & C2 & E & F). split.
        + apply L. split; [apply (proj1 (clique_right n1 n2 adj1 adj2 adj B S1 d2) C2)|]. split; [unfold shift; rewrite map_length; exact E|].
          apply (not_first_right n1 n2 adj2 adj); auto.
        + destruct (in_dec dec (shift n1 d2) l1) as [I|_].
          { apply L1 in I. destruct I as ((_ & R & _) & _). destruct d2 as [|v d2]; [exfalso; apply (NE [] E); reflexivity|].
            specialize (R (n1 + v) ltac:(cbn; auto)). destruct C2 as (_ & R2 & _). specialize (R2 v ltac:(cbn; auto)). lia. }
          destruct (in_dec dec (shift n1 d2) (map (shift n1) l2)) as [I|_]; [|reflexivity].
          apply in_map_iff in I. destruct I as (d3 & ES & I). apply shift_inj in ES. subst d3. apply L2 in I. destruct I as (_ & _ & I). contradiction. }
    assert (EX : map (shift n1) x = filter keep l).
    { unfold x. rewrite map_map. rewrite <- (map_id (filter keep l)) at 2. apply map_ext_in. intros d I. apply KX in I. destruct I as (d2 & -> & _).
      unfold shift. rewrite !map_map. apply map_ext. intros v. lia. }
    exists (new_enum k), (new_enum k), (new_enum k), q1, en1, l1, q2, en2, l2, q, en, l, x.
    split; [apply (all_cliques_made p1 n1 adj1 M1); auto|]. split; [apply (all_cliques_made p2 n2 adj2 M2); auto|].
    split; [apply (all_cliques_made p (n1 + n2) adj M LV); lia|]. split; [exact D1|]. split; [exact D2|]. split; [exact D|]. split.
    - rewrite map_app, EX.
      assert (LEFT : forall d, In d l1 -> clique (n1 + n2) adj d /\ length d = k /\ forall v, In v d -> v <= n1).
      { intros d I. apply L1 in I. destruct I as (C & E & _). split; [apply (clique_left n1 n2 adj1 adj2 adj B); exact C|]. split; [exact E|].
        intros v V. apply (proj1 (proj2 C)) in V. lia. }
      assert (RIGHT : forall d, In d (filter keep l ++ map (shift n1) l2) -> exists d2, d = shift n1 d2 /\ clique n2 adj2 d2 /\ length d2 = k).
      { intros d I. apply in_app_iff in I. destruct I as [I|I].
        - apply KX in I. destruct I as (d2 & E & C & F & _). exists d2. auto.
        - apply in_map_iff in I. destruct I as (d2 & <- & I). apply L2 in I. exists d2. tauto. }
      assert (POS : forall d2, clique n2 adj2 d2 -> forall v, In v d2 -> 1 <= v) by (intros d2 (_ & R & _) v I; specialize (R v I); lia).
      apply (sorted_equal (listed_before adj)).
      + intros y z I J. apply L in I, J. apply (listed_asym a (n1 + n2) adj GR); [apply I|apply J].
      + exact O.
      + apply sorted_app_iff. split; [|split].
        * assert (G : forall l0, (forall d, In d l0 -> In d l1) -> StronglySorted (listed_before adj1) l0 -> StronglySorted (listed_before adj) l0).
          { intros l0 SUB SO. induction SO as [|y l0 SO IH F]; constructor; [apply IH; intros; apply SUB; cbn; auto|].
            rewrite Forall_forall in *. intros z I. destruct (F z I) as (v & v' & OV & OV' & X). exists v, v'.
            split; [apply (opens_left n1 n2 adj1 adj2 adj B S2); [apply LEFT, SUB; cbn; auto|exact OV]|].
            split; [apply (opens_left n1 n2 adj1 adj2 adj B S2); [apply LEFT, SUB; cbn; auto|exact OV']|exact X]. }
          apply G; auto.
        * apply sorted_app_iff. split; [apply filter_sorted; exact O|]. split.
          -- assert (G : forall l0, (forall d, In d l0 -> clique n2 adj2 d) -> StronglySorted (listed_before adj2) l0 -> StronglySorted (listed_before adj) (map (shift n1) l0)).
             { intros l0 SUB SO. induction SO as [|y l0 SO IH F]; cbn [map]; constructor; [apply IH; intros; apply SUB; cbn; auto|].
               rewrite Forall_forall in *. intros z I. apply in_map_iff in I. destruct I as (z2 & <- & I). destruct (F z2 I) as (v & v' & OV & OV' & X).
               exists (n1 + v), (n1 + v'). split; [apply (opens_right n1 n2 adj1 adj2 adj B S1 S2); [apply POS, SUB; cbn; auto|exact OV]|].
               split; [apply (opens_right n1 n2 adj1 adj2 adj B S1 S2); [apply POS, SUB; cbn; auto|exact OV']|].
               destruct X as [X|[-> X]]; [left; lia|right; split; [reflexivity|apply lex_shift; exact X]]. }
             apply G; [|exact O2]. intros d I. apply L2 in I. apply I.
          -- intros y z I J. apply KX in I. destruct I as (d2 & -> & C2 & E2 & F2). apply in_map_iff in J. destruct J as (d3 & <- & J). apply L2 in J. destruct J as (C3 & E3 & F3).
             destruct (root_opens a2 n2 adj2 GR2 d3 C3 (NE d3 E3)) as (v & _ & V & OV & _). exists (n1 + 1), (n1 + v).
             split; [apply (opens_right n1 n2 adj1 adj2 adj B S1 S2); [apply POS; exact C2|apply (first_opens n2); auto]|].
             split; [apply (opens_right n1 n2 adj1 adj2 adj B S1 S2); [apply POS; exact C3|exact OV]|].
             left. destruct (Nat.eq_dec v 1) as [->|NV]; [destruct F3; apply opens_first; exact OV|]. lia.
        * intros y z I J. destruct (LEFT y I) as (C & E & R). destruct (RIGHT z J) as (d2 & -> & C2 & E2).
          destruct (root_opens a (n1 + n2) adj GR y C (NE y E)) as (v & _ & _ & OV & _).
          destruct (root_opens a2 n2 adj2 GR2 d2 C2 (NE d2 E2)) as (v' & _ & V' & OV' & _). exists v, (n1 + v').
          split; [exact OV|]. split; [apply (opens_right n1 n2 adj1 adj2 adj B S1 S2); [apply POS; exact C2|exact OV']|].
          left. destruct OV as [IV _]. specialize (R v IV). lia.
      + intros d. rewrite !in_app_iff. split.
        * intros [I|[I|I]].
          -- pose proof I as I'. apply L1 in I'. destruct I' as (C & E & F). destruct (LEFT d I) as (C' & _). apply L. split; [exact C'|]. split; [exact E|].
             intros F'. apply F. apply (first_left n1 n2 adj1 adj2 adj B S2 d C). exact F'.
          -- apply filter_In in I. apply I.
          -- apply in_map_iff in I. destruct I as (d2 & <- & I). apply L2 in I. destruct I as (C & E & F). apply L.
             split; [apply (proj1 (clique_right n1 n2 adj1 adj2 adj B S1 d2) C)|]. split; [unfold shift; rewrite map_length; exact E|]. apply (not_first_right n1 n2 adj2 adj); auto.
        * intros I. destruct (in_dec dec d l1) as [|X1]; [auto|]. destruct (in_dec dec d (map (shift n1) l2)) as [|X2]; [auto|].
          right. left. apply filter_In. split; [exact I|]. unfold keep. destruct (in_dec dec d l1); [contradiction|].
          destruct (in_dec dec d (map (shift n1) l2)); [contradiction|reflexivity].
    - intros d. split.
      + intros I. assert (J : In (shift n1 d) (filter keep l)) by (rewrite <- EX; apply in_map; exact I). apply KX in J. destruct J as (d2 & E & C).
        apply shift_inj in E. subst d2. exact C.
      + intros H. assert (J : In (shift n1 d) (filter keep l)) by (apply KX; exists d; auto). rewrite <- EX in J. apply in_map_iff in J.
        destruct J as (d2 & E & I). apply shift_inj in E. subst d2. exact I.
  Qed.
End Graphs.

(** A first part without edges makes all_cliques complete for the second. *)
Lemma behind_complete p m n adj2 adj lr k : beside m (fun _ _ => False) adj2 adj -> simple n adj2 -> made p (m + n) adj -> storage_live p -> 1 <= m -> 2 <= k ->
  exists a q en l, all_cliques p k = Ret a /\ (forall fuel, length l < fuel -> drain fuel lr p a = Ok (q, en, l)) /\ NoDup l
    /\ forall d, In d l <-> exists c, d = shift m c /\ clique n adj2 c /\ length c = k.
Proof.
  intros B S2 M LV L K. assert (S1 : simple m (fun _ _ => False)) by (intros u v []).
  destruct (enumerate_fresh p (m + n) adj lr k M LV) as (q & en & l & D & _ & ND & _ & _ & _ & C). specialize (C K).
  exists (new_enum k), q, en, l. split; [apply (all_cliques_made p (m + n) adj M LV); lia|]. split; [exact D|]. split; [exact ND|].
  intros d. rewrite C. split.
  - intros (CL & E & _). destruct (clique_split m n _ adj2 adj B S1 S2 d CL) as [(_ & _ & C3)|(c & CC & ->)].
    + destruct d as [|x [|y d]]; cbn [length] in E; try lia. destruct CL as (SO & _). apply StronglySorted_inv in SO. destruct SO as [_ F]. inversion F; subst.
      exfalso. apply (C3 x y); cbn; auto. lia.
    + exists c. unfold shift in E. rewrite map_length in E. auto.
  - intros (c & -> & CC & E). split; [apply (proj1 (clique_right m n _ adj2 adj B S1 c) CC)|]. split; [unfold shift; rewrite map_length; exact E|].
    apply (not_first_right m n adj2 adj); auto.
Qed.

(** ** NWGraph *)
Section Weighted.
  Variables (rnd : Z -> Z) (p1 p2 p : pynw) (n1 n2 : nat) (adj1 adj2 adj : nat -> nat -> Prop) (w1 w2 w : list Z).
  Hypothesis B : beside n1 adj1 adj2 adj.
  Hypothesis BW : weights_beside n1 w1 w2 w.
  Hypothesis M1 : nmade rnd p1 n1 adj1 w1.
  Hypothesis M2 : nmade rnd p2 n2 adj2 w2.
  Hypothesis M : nmade rnd p (n1 + n2) adj w.
  Hypothesis H1 : has_edge adj1.
  Hypothesis H2 : has_edge adj2.
  Hypothesis LV1 : nstorage_live p1.
  Hypothesis LV2 : nstorage_live p2.
  Hypothesis LV : nstorage_live p.
  Hypothesis SE1 : sums_exact rnd w1.
  Hypothesis SE2 : sums_exact rnd w2.
  Hypothesis SE : sums_exact rnd w.
  Hypothesis NN1 : nonnegative w1.
  Hypothesis NN2 : nonnegative w2.
  Hypothesis NN : nonnegative w.

  Lemma weight_left c : (forall v, In v c -> 1 <= v <= n1) -> weight w c = weight w1 c.
  Proof. induction c as [|x c IH]; intros R; [reflexivity|]. cbn [weight]. rewrite IH by (intros; apply R; cbn; auto). rewrite (proj1 BW) by (apply R; cbn; auto). reflexivity. Qed.

  Lemma weight_right c : (forall v, In v c -> 1 <= v) -> weight w (shift n1 c) = weight w2 c.
  Proof.
    unfold shift. induction c as [|x c IH]; intros R; [reflexivity|]. cbn [map weight]. rewrite IH by (intros; apply R; cbn; auto). rewrite (proj2 BW) by (apply R; cbn; auto). reflexivity.
  Qed.

  Lemma beside_heaviest e1 e2 e lb1 lb2 lb ub1 ub2 ub heur1 heur2 heur c1 c2 c : npermutes e1 -> npermutes e2 -> npermutes e ->
    all_within n1 adj1 w1 ub1 -> all_within n2 adj2 w2 ub2 -> all_within (n1 + n2) adj w ub ->
    answer (nw_get_max_clique rnd e1 p1 lb1 ub1 heur1 true) = Ok (Ret c1) -> answer (nw_get_max_clique rnd e2 p2 lb2 ub2 heur2 true) = Ok (Ret c2) ->
    answer (nw_get_max_clique rnd e p lb ub heur true) = Ok (Ret c) ->
    2 <= length c1 -> 2 <= length c2 -> 2 <= length c -> weight w c = Z.max (weight w1 c1) (weight w2 c2).
  Proof.
    intros P1 P2 P U1 U2 U A1 A2 A L1 L2 L.
    assert (HE : has_edge adj) by (destruct H1 as (u & v & X); exists u, v; apply B; auto).
    assert (S1 : simple n1 adj1) by (destruct (nmade_made _ _ _ _ _ M1) as [_ MD]; apply (made_simple _ _ _ MD)).
    assert (S2 : simple n2 adj2) by (destruct (nmade_made _ _ _ _ _ M2) as [_ MD]; apply (made_simple _ _ _ MD)).
    pose proof (nw_clique rnd p1 n1 adj1 w1 M1 H1 LV1 p1 e1 lb1 ub1 heur1 true (nh_start rnd p1) P1) as C1.
    pose proof (nw_clique rnd p2 n2 adj2 w2 M2 H2 LV2 p2 e2 lb2 ub2 heur2 true (nh_start rnd p2) P2) as C2.
    pose proof (nw_clique rnd p (n1 + n2) adj w M HE LV p e lb ub heur true (nh_start rnd p) P) as C.
    pose proof (nw_heaviest rnd p1 n1 adj1 w1 M1 H1 LV1 SE1 NN1 p1 e1 lb1 ub1 heur1 (or_introl eq_refl) P1 U1) as K1.
    pose proof (nw_heaviest rnd p2 n2 adj2 w2 M2 H2 LV2 SE2 NN2 p2 e2 lb2 ub2 heur2 (or_introl eq_refl) P2 U2) as K2.
    pose proof (nw_heaviest rnd p (n1 + n2) adj w M HE LV SE NN p e lb ub heur (or_introl eq_refl) P U) as K.
    destruct (nw_get_max_clique rnd e1 p1 lb1 ub1 heur1 true) as [[q1 r]| |]; cbn [answer ends_with] in *; try discriminate. injection A1 as ->.
    destruct (nw_get_max_clique rnd e2 p2 lb2 ub2 heur2 true) as [[q2 r]| |]; cbn [answer ends_with] in *; try discriminate. injection A2 as ->.
    destruct (nw_get_max_clique rnd e p lb ub heur true) as [[q r]| |]; cbn [answer ends_with] in *; try discriminate. injection A as ->.
    destruct C1 as [[-> |C1] _]; [cbn in L1; lia|]. destruct C2 as [[-> |C2] _]; [cbn in L2; lia|]. destruct C as [[-> |C] _]; [cbn in L; lia|].
    assert (POS : forall d2, clique n2 adj2 d2 -> forall v, In v d2 -> 1 <= v) by (intros d2 (_ & R & _) v I; specialize (R v I); lia).
    assert (LS : forall d, length (shift n1 d) = length d) by (intros d; apply map_length).
    pose proof (K c1 (clique_left n1 n2 adj1 adj2 adj B c1 C1) L1) as X1. rewrite weight_left in X1 by apply C1.
    pose proof (K (shift n1 c2) (proj1 (proj1 (clique_right n1 n2 adj1 adj2 adj B S1 c2) C2))) as X2. rewrite LS in X2. specialize (X2 L2).
    rewrite weight_right in X2 by (apply POS; exact C2).
    destruct (clique_split n1 n2 adj1 adj2 adj B S1 S2 c C) as [D|(d & D & ->)].
    - pose proof (K1 c D L) as Y. rewrite weight_left in * by apply D. lia.
    - rewrite LS in L. pose proof (K2 d D L) as Y. rewrite weight_right in * by (apply POS; exact D). lia.
  Qed.
End Weighted.

(** ** NWGraph.all_cliques behind vertices without edges *)
Section Behind.
  Variables (rnd : Z -> Z) (p : pynw) (m n : nat) (adj2 adj : nat -> nat -> Prop) (w2 w : list Z).
  Hypothesis B : beside m (fun _ _ => False) adj2 adj.
  Hypothesis BW : forall v, 1 <= v -> vweight w (m + v) = vweight w2 v.
  Hypothesis S2 : simple n adj2.

  Let S1 : simple m (fun _ _ => False).
  Proof. intros u v []. Qed.

  Lemma behind_weight c : (forall v, In v c -> 1 <= v) -> weight w (shift m c) = weight w2 c.
  Proof.
    unfold shift. induction c as [|x c IH]; intros R; [reflexivity|]. cbn [map weight]. rewrite IH by (intros; apply R; cbn; auto). rewrite BW by (apply R; cbn; auto). reflexivity.
  Qed.

  Lemma adj2_low x y : adj2 x y -> 1 <= y.
  Proof. intros A. destruct (S2 x y A) as (A' & _). destruct (S2 y x A') as (_ & _ & R). lia. Qed.

  Lemma wdegree_right x y : 1 <= x -> wdegree adj w (m + x) y <-> wdegree adj2 w2 x y.
  Proof.
    intros L. split; intros (l & N & H & E).
    - assert (R : forall v, In v l -> m < v).
      { intros v I. apply H in I. destruct I as [-> |I]; [lia|]. apply (right_adj m _ adj2 adj B S1 x) in I; [|exact L]. destruct I as (z & -> & A). apply adj2_low in A. lia. }
      destruct (shift_back m l R) as (l2 & ->). exists l2. split; [unfold shift in N; apply NoDup_map_inv in N; exact N|].
      assert (H2 : forall u, In u l2 <-> u = x \/ adj2 x u).
      { intros u. split.
        - intros I. assert (J : m + u = m + x \/ adj (m + x) (m + u)) by (apply H; apply shift_in; exists u; auto). destruct J as [J|J]; [left; lia|].
          apply (right_adj m _ adj2 adj B S1 x) in J; [|exact L]. destruct J as (z & E2 & A). right. replace u with z by lia. exact A.
        - intros A. assert (J : In (m + u) (shift m l2)).
          { apply H. destruct A as [-> |A]; [auto|]. right. apply (right_adj m _ adj2 adj B S1 x); [exact L|]. exists u. auto. }
          apply shift_in in J. destruct J as (z & I & E2). replace u with z by lia. exact I. }
      split; [exact H2|]. rewrite E. apply behind_weight. intros v I. apply H2 in I. destruct I as [-> |A]; [exact L|apply (adj2_low _ _ A)].
    - exists (shift m l). split; [unfold shift; apply FinFun.Injective_map_NoDup; [intros a b; lia|exact N]|]. split.
      + intros u. rewrite shift_in, (right_adj m _ adj2 adj B S1 x) by exact L. split.
        * intros (z & Z & ->). apply H in Z. destruct Z as [-> |A]; [auto|]. right. exists z. auto.
        * intros [-> |(z & -> & A)]; [exists x|exists z]; (split; [apply H; auto|reflexivity]).
      + rewrite E. symmetry. apply behind_weight. intros v I. apply H in I. destruct I as [-> |A]; [exact L|apply (adj2_low _ _ A)].
  Qed.

  Lemma starts_right c v : (forall u, In u c -> 1 <= u) -> starts_at adj w (shift m c) (m + v) <-> starts_at adj2 w2 c v.
  Proof.
    intros R. split; intros (I & H).
    - apply shift_in in I. destruct I as (z & I & E). assert (z = v) by lia. subst z. split; [exact I|]. intros u xv xu U NE XV XU.
      destruct (H (m + u) xv xu) as [X|[X Y]]; [apply shift_in; exists u; auto|lia|apply wdegree_right; auto|apply wdegree_right; auto|left; exact X|right; split; [exact X|lia]].
    - split; [apply shift_in; exists v; auto|]. intros u xv xu U NE XV XU. apply shift_in in U. destruct U as (z & U & ->). apply wdegree_right in XV, XU; auto.
      destruct (H z xv xu U ltac:(lia) XV XU) as [X|[X Y]]; [left; exact X|right; split; [exact X|lia]].
  Qed.

  Lemma ends_right c v u : ends_at (shift m c) (m + v) (m + u) <-> ends_at c v u.
  Proof.
    split; intros (I & NE & H).
    - apply shift_in in I. destruct I as (z & I & E). assert (z = u) by lia. subst z. split; [exact I|]. split; [lia|]. intros x X NX.
      specialize (H (m + x)). rewrite shift_in in H. specialize (H (ex_intro _ x (conj X eq_refl)) ltac:(lia)). lia.
    - split; [apply shift_in; exists u; auto|]. split; [lia|]. intros x X NX. apply shift_in in X. destruct X as (z & X & ->). specialize (H z X ltac:(lia)). lia.
  Qed.

  Lemma shift_remove u c : remove Nat.eq_dec (m + u) (shift m c) = shift m (remove Nat.eq_dec u c).
  Proof.
    unfold shift. induction c as [|x c IH]; [reflexivity|]. cbn [map remove]. destruct (Nat.eq_dec (m + u) (m + x)), (Nat.eq_dec u x); try lia; cbn [map]; rewrite IH; reflexivity.
  Qed.

  Lemma heavy_right T c v : (forall u, In u c -> 1 <= u) -> heavy_minimal (m + n) adj w T (shift m c) (m + v) <-> heavy_minimal n adj2 w2 T c v.
  Proof.
    intros R. unfold heavy_minimal. rewrite (starts_right c v R), (behind_weight c R). unfold shift at 2. rewrite map_length.
    assert (X : (exists u, ends_at (shift m c) (m + v) u /\ (length (remove Nat.eq_dec u (shift m c)) = 1 \/ (weight w (remove Nat.eq_dec u (shift m c)) < T)%Z))
      <-> exists u, ends_at c v u /\ (length (remove Nat.eq_dec u c) = 1 \/ (weight w2 (remove Nat.eq_dec u c) < T)%Z)).
    { assert (Y : forall u, length (remove Nat.eq_dec (m + u) (shift m c)) = length (remove Nat.eq_dec u c)
        /\ weight w (remove Nat.eq_dec (m + u) (shift m c)) = weight w2 (remove Nat.eq_dec u c)).
      { intros u. rewrite shift_remove. split; [apply map_length|]. apply behind_weight. intros x I. apply in_remove in I. apply R, I. }
      split.
      - intros (u & EN & H). pose proof EN as (I & _). apply shift_in in I. destruct I as (z & I & ->). destruct (Y z) as (Y1 & Y2). rewrite Y1, Y2 in H.
        exists z. split; [apply ends_right; exact EN|exact H].
      - intros (u & EN & H). destruct (Y u) as (Y1 & Y2). exists (m + u). rewrite Y1, Y2. split; [apply ends_right; exact EN|exact H]. }
    rewrite X. split; intros (C & H); (split; [|exact H]); apply (clique_right m n _ adj2 adj B S1 c); auto.
  Qed.

  Hypothesis M : nmade rnd p (m + n) adj w.
  Hypothesis HE : has_edge adj2.
  Hypothesis LV : nstorage_live p.
  Hypothesis SE : sums_exact rnd w.
  Hypothesis RI : rises rnd.
  Hypothesis NN : nonnegative w.

  Lemma behind_heavy e T lr : 1 <= m -> exists en q en' l, nw_all_cliques e p T = Ret en
    /\ (forall fuel, length l < fuel -> nw_drain rnd fuel lr p en = Ok (q, en', l))
    /\ forall d, In d l <-> exists c v, d = shift m c /\ heavy_minimal n adj2 w2 T c v.
  Proof.
    intros L. assert (HE' : has_edge adj) by (destruct HE as (u & v & A); exists (m + u), (m + v); apply B; right; exists u, v; auto).
    destruct (nw_lists rnd p (m + n) adj w M HE' LV SE RI NN p e T lr (nu_start _ _ _ _ _)) as (en & q & x & l & E & D & _ & C).
    exists en, q, x, l. split; [exact E|]. split; [exact D|]. intros d. rewrite C. split.
    - intros (v & NV & H). pose proof H as (CL & LE & _ & (I & _) & _). destruct (clique_split m n _ adj2 adj B S1 S2 d CL) as [(_ & _ & C3)|(c & CC & ->)].
      + destruct d as [|y [|z d]]; cbn [length] in LE; try lia. destruct CL as (SO & _). apply StronglySorted_inv in SO. destruct SO as [_ F]. inversion F; subst.
        exfalso. apply (C3 y z); cbn; auto. lia.
      + apply shift_in in I. destruct I as (z & I & ->). exists c, z. split; [reflexivity|]. apply heavy_right; [|exact H].
        intros u U. apply (proj1 (proj2 CC)) in U. lia.
    - intros (c & v & -> & H). pose proof H as (CL & _ & _ & (I & _) & _). assert (R : forall u, In u c -> 1 <= u) by (intros u U; apply (proj1 (proj2 CL)) in U; lia).
      exists (m + v). split; [specialize (R v I); lia|]. apply heavy_right; auto.
  Qed.
End Behind.
