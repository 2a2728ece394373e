(** JoinFacts: two graphs with all edges between them (C109). *)
From Verif Require Import Base MUtils MGraph MEnum MApi MNW MNWEnum MNWApi Spec SpecNW SpecBeside SpecJoin LoadFacts SearchProps SetFacts SortFacts Samples FirstFacts NWFacts NWProps BesideFacts.
From Coq Require Import Sorting.Sorted Sorting.Permutation.
Local Open Scope nat_scope.

Lemma sorted_split m c : StronglySorted lt c -> (forall v, In v c -> 1 <= v) ->
  exists c1 c2, c = c1 ++ shift m c2 /\ (forall v, In v c1 -> v <= m) /\ forall v, In v c2 -> 1 <= v.
Proof.
  induction c as [|x c IH]; intros S P; [exists [], []; cbn; tauto|]. apply StronglySorted_inv in S. destruct S as [S F]. rewrite Forall_forall in F.
  destruct (Nat.le_gt_cases x m) as [L|G].
  - destruct (IH S) as (c1 & c2 & -> & R1 & R2); [intros v I; apply P; cbn; auto|]. exists (x :: c1), c2. cbn. split; [reflexivity|]. split; [|exact R2].
    intros v [<-|I]; auto.
  - destruct (shift_back m (x :: c)) as (d & E).
    { intros v [<-|I]; [exact G|]. specialize (F v I). lia. }
    exists [], d. cbn [app]. split; [exact E|]. split; [intros v []|]. intros v I. assert (J : In (m + v) (x :: c)) by (rewrite E; apply shift_in; exists v; auto).
    cbn [In] in J. destruct J as [J|J]; [lia|]. specialize (F _ J). lia.
Qed.

Section Join.
  Variables (n1 n2 : nat) (adj1 adj2 adj : nat -> nat -> Prop).
  Hypothesis B : joined n1 n2 adj1 adj2 adj.
  Hypothesis S1 : simple n1 adj1.
  Hypothesis S2 : simple n2 adj2.

  Lemma join_up c1 c2 : clique n1 adj1 c1 -> clique n2 adj2 c2 -> clique (n1 + n2) adj (c1 ++ shift n1 c2).
  Proof.
    intros (A1 & A2 & A3) (B1 & B2 & B3). split; [|split].
    - apply sorted_app_iff. split; [exact A1|]. split; [apply shift_sorted; exact B1|]. intros x y I J. apply shift_in in J. destruct J as (z & J & ->).
      specialize (A2 x I). specialize (B2 z J). lia.
    - intros v I. apply in_app_iff in I. destruct I as [I|I]; [specialize (A2 v I); lia|]. apply shift_in in I. destruct I as (z & I & ->). specialize (B2 z I). lia.
    - intros u v U V N. apply B. apply in_app_iff in U, V. destruct U as [U|U], V as [V|V].
      + left. auto.
      + apply shift_in in V. destruct V as (y & V & ->). specialize (A2 u U). specialize (B2 y V). lia.
      + apply shift_in in U. destruct U as (x & U & ->). specialize (A2 v V). specialize (B2 x U). lia.
      + apply shift_in in U, V. destruct U as (x & U & ->), V as (y & V & ->). right. left. exists x, y. split; [reflexivity|]. split; [reflexivity|]. apply B3; auto.
  Qed.

  Lemma join_down c : clique (n1 + n2) adj c -> exists c1 c2, c = c1 ++ shift n1 c2 /\ clique n1 adj1 c1 /\ clique n2 adj2 c2.
  Proof.
    intros (C1 & C2 & C3). destruct (sorted_split n1 c C1) as (c1 & c2 & -> & R1 & R2); [intros v I; specialize (C2 v I); lia|].
    exists c1, c2. split; [reflexivity|]. apply sorted_app_iff in C1. destruct C1 as (A1 & B1 & _). apply shift_sorted in B1.
    assert (I2 : forall v, In v c2 -> In (n1 + v) (c1 ++ shift n1 c2)) by (intros v I; apply in_app_iff; right; apply shift_in; exists v; auto).
    split; (split; [assumption|]; split).
    - intros v I. specialize (R1 v I). specialize (C2 v ltac:(apply in_app_iff; auto)). lia.
    - intros u v U V N. specialize (C3 u v ltac:(apply in_app_iff; auto) ltac:(apply in_app_iff; auto) N). apply B in C3. pose proof (R1 u U). pose proof (R1 v V).
      destruct C3 as [A|[(x & y & E1 & E2 & A)|H1]]; [exact A| |lia]. destruct (S2 x y A) as (_ & _ & R). lia.
    - intros v I. specialize (R2 v I). specialize (C2 _ (I2 v I)). lia.
    - intros u v U V N. specialize (C3 (n1 + u) (n1 + v) (I2 u U) (I2 v V) ltac:(lia)). apply B in C3. pose proof (R2 u U). pose proof (R2 v V).
      destruct C3 as [A|[(x & y & E1 & E2 & A)|H1]]; [destruct (S1 _ _ A) as (_ & _ & R); lia| |lia].
      replace u with x by lia. replace v with y by lia. exact A.
  Qed.
End Join.

(** ** Graph *)
Section Graphs.
  Variables (p1 p2 p : pygraph) (n1 n2 : nat) (adj1 adj2 adj : nat -> nat -> Prop).
  Hypothesis B : joined n1 n2 adj1 adj2 adj.
  Hypothesis M1 : made p1 n1 adj1.
  Hypothesis M2 : made p2 n2 adj2.
  Hypothesis M : made p (n1 + n2) adj.
  Hypothesis LV1 : storage_live p1.
  Hypothesis LV2 : storage_live p2.
  Hypothesis LV : storage_live p.

  Lemma joined_size e1 e2 e lb1 lb2 lb ub1 ub2 ub heur1 heur2 heur cont1 cont2 cont q1 q2 q c1 c2 c : has_edge adj1 -> has_edge adj2 ->
    permutes e1 -> permutes e2 -> permutes e -> never_late e1 -> never_late e2 -> never_late e ->
    (forall d, clique n1 adj1 d -> length d <= ub1) -> (forall d, clique n2 adj2 d -> length d <= ub2) -> (forall d, clique (n1 + n2) adj d -> length d <= ub) ->
    get_max_clique e1 p1 lb1 ub1 heur1 true cont1 = Ok (q1, Ret c1) -> get_max_clique e2 p2 lb2 ub2 heur2 true cont2 = Ok (q2, Ret c2) ->
    get_max_clique e p lb ub heur true cont = Ok (q, Ret c) -> length c = length c1 + length c2.
  Proof.
    intros H1 H2 P1 P2 P T1 T2 T U1 U2 U E1 E2 E.
    assert (HE : has_edge adj) by (destruct H1 as (u & v & A); exists u, v; apply B; auto).
    destruct (fresh_best p1 n1 adj1 e1 lb1 ub1 heur1 cont1 q1 c1 M1 H1 LV1 P1 T1 U1 E1) as [C1 X1].
    destruct (fresh_best p2 n2 adj2 e2 lb2 ub2 heur2 cont2 q2 c2 M2 H2 LV2 P2 T2 U2 E2) as [C2 X2].
    destruct (fresh_best p (n1 + n2) adj e lb ub heur cont q c M HE LV P T U E) as [C X].
    pose proof (made_simple p1 n1 adj1 M1) as S1. pose proof (made_simple p2 n2 adj2 M2) as S2.
    pose proof (X _ (join_up n1 n2 adj1 adj2 adj B c1 c2 C1 C2)) as Y. rewrite app_length in Y. unfold shift in Y. rewrite map_length in Y.
    destruct (join_down n1 n2 adj1 adj2 adj B S1 S2 c C) as (d1 & d2 & -> & D1 & D2). pose proof (X1 d1 D1). pose proof (X2 d2 D2).
    rewrite app_length in *. unfold shift in *. rewrite map_length in *. lia.
  Qed.
End Graphs.

(** ** NWGraph *)
Lemma weight_app w a b : weight w (a ++ b) = (weight w a + weight w b)%Z.
Proof. induction a as [|x a IH]; [reflexivity|]. cbn [app weight]. rewrite IH. lia. Qed.

(** Where every vertex has a neighbour, single vertices and the empty clique weigh no more than the heaviest pair. *)
Lemma all_below n adj w c : simple n adj -> nonnegative w -> no_lone n adj ->
  (forall d, clique n adj d -> 2 <= length d -> (weight w d <= weight w c)%Z) -> forall d, clique n adj d -> (weight w d <= weight w c)%Z.
Proof.
  intros S N NB K d D. destruct d as [|x [|y d]]; [cbn; apply weight_nonneg; exact N| |apply K; [exact D|cbn; lia]].
  pose proof (proj1 (proj2 D) x (or_introl eq_refl)) as R. destruct (NB x R) as (u & A). destruct (S x u A) as (AS & NE & _). pose proof (S u x AS) as (_ & _ & R').
  assert (PC : exists e, clique n adj e /\ length e = 2 /\ weight w e = (weight w [x] + weight w [u])%Z).
  { destruct (Nat.lt_ge_cases x u) as [L|L]; [exists [x; u]|exists [u; x]]; (split; [|split; [reflexivity|cbn; lia]]);
    (split; [repeat constructor; lia|split; [intros v [<-|[<-|[]]]; lia|intros a b [<-|[<-|[]]] [<-|[<-|[]]]; intros; auto; congruence]]). }
  destruct PC as (e & C & L & W). pose proof (K e C ltac:(lia)). pose proof (weight_nonneg w [u] N). lia.
Qed.

Section Weighted.
  Variables (rnd : Z -> Z) (p1 p2 p : pynw) (n1 n2 : nat) (adj1 adj2 adj : nat -> nat -> Prop) (w1 w2 w : list Z).
  Hypothesis B : joined n1 n2 adj1 adj2 adj.
  Hypothesis BW : weights_beside n1 w1 w2 w.
  Hypothesis M1 : nmade rnd p1 n1 adj1 w1.
  Hypothesis M2 : nmade rnd p2 n2 adj2 w2.
  Hypothesis M : nmade rnd p (n1 + n2) adj w.
  Hypothesis H1 : has_edge adj1.
  Hypothesis H2 : has_edge adj2.
  Hypothesis LV1 : nstorage_live p1.
  Hypothesis LV2 : nstorage_live p2.
  Hypothesis LV : nstorage_live p.
  Hypothesis SE1 : sums_exact rnd w1.
  Hypothesis SE2 : sums_exact rnd w2.
  Hypothesis SE : sums_exact rnd w.
  Hypothesis NN1 : nonnegative w1.
  Hypothesis NN2 : nonnegative w2.
  Hypothesis NN : nonnegative w.

  Hypothesis NB1 : no_lone n1 adj1.
  Hypothesis NB2 : no_lone n2 adj2.

  Lemma joined_heaviest e1 e2 e lb1 lb2 lb ub1 ub2 ub heur1 heur2 heur c1 c2 c : npermutes e1 -> npermutes e2 -> npermutes e ->
    all_within n1 adj1 w1 ub1 -> all_within n2 adj2 w2 ub2 -> all_within (n1 + n2) adj w ub ->
    answer (nw_get_max_clique rnd e1 p1 lb1 ub1 heur1 true) = Ok (Ret c1) -> answer (nw_get_max_clique rnd e2 p2 lb2 ub2 heur2 true) = Ok (Ret c2) ->
    answer (nw_get_max_clique rnd e p lb ub heur true) = Ok (Ret c) ->
    2 <= length c1 -> 2 <= length c2 -> 2 <= length c -> weight w c = (weight w1 c1 + weight w2 c2)%Z.
  Proof.
    intros P1 P2 P U1 U2 U A1 A2 A L1 L2 L.
    assert (HE : has_edge adj) by (destruct H1 as (u & v & X); exists u, v; apply B; auto).
    assert (S1 : simple n1 adj1) by (destruct (nmade_made _ _ _ _ _ M1) as [_ MD]; apply (made_simple _ _ _ MD)).
    assert (S2 : simple n2 adj2) by (destruct (nmade_made _ _ _ _ _ M2) as [_ MD]; apply (made_simple _ _ _ MD)).
    pose proof (nw_clique rnd p1 n1 adj1 w1 M1 H1 LV1 p1 e1 lb1 ub1 heur1 true (nh_start rnd p1) P1) as C1.
    pose proof (nw_clique rnd p2 n2 adj2 w2 M2 H2 LV2 p2 e2 lb2 ub2 heur2 true (nh_start rnd p2) P2) as C2.
    pose proof (nw_clique rnd p (n1 + n2) adj w M HE LV p e lb ub heur true (nh_start rnd p) P) as C.
    pose proof (nw_heaviest rnd p1 n1 adj1 w1 M1 H1 LV1 SE1 NN1 p1 e1 lb1 ub1 heur1 (or_introl eq_refl) P1 U1) as K1.
    pose proof (nw_heaviest rnd p2 n2 adj2 w2 M2 H2 LV2 SE2 NN2 p2 e2 lb2 ub2 heur2 (or_introl eq_refl) P2 U2) as K2.
    pose proof (nw_heaviest rnd p (n1 + n2) adj w M HE LV SE NN p e lb ub heur (or_introl eq_refl) P U) as K.
    destruct (nw_get_max_clique rnd e1 p1 lb1 ub1 heur1 true) as [[q1 r]| |]; cbn [answer ends_with] in *; try discriminate. injection A1 as ->.
    destruct (nw_get_max_clique rnd e2 p2 lb2 ub2 heur2 true) as [[q2 r]| |]; cbn [answer ends_with] in *; try discriminate. injection A2 as ->.
    destruct (nw_get_max_clique rnd e p lb ub heur true) as [[q r]| |]; cbn [answer ends_with] in *; try discriminate. injection A as ->.
    destruct C1 as [[-> |C1] _]; [cbn in L1; lia|]. destruct C2 as [[-> |C2] _]; [cbn in L2; lia|]. destruct C as [[-> |C] _]; [cbn in L; lia|].
    assert (POS : forall d2, clique n2 adj2 d2 -> forall v, In v d2 -> 1 <= v) by (intros d2 (_ & R & _) v I; specialize (R v I); lia).
    assert (WT : forall d1 d2, clique n1 adj1 d1 -> clique n2 adj2 d2 -> weight w (d1 ++ shift n1 d2) = (weight w1 d1 + weight w2 d2)%Z).
    { intros d1 d2 D1 D2. rewrite weight_app, (weight_left n1 w1 w2 w BW), (weight_right n1 w1 w2 w BW); [reflexivity|apply POS; exact D2|apply D1]. }
    pose proof (K _ (join_up n1 n2 adj1 adj2 adj B c1 c2 C1 C2)) as Y. rewrite app_length, WT in Y by assumption. specialize (Y ltac:(lia)).
    destruct (join_down n1 n2 adj1 adj2 adj B S1 S2 c C) as (d1 & d2 & -> & D1 & D2). rewrite WT in * by assumption.
    pose proof (all_below n1 adj1 w1 c1 S1 NN1 NB1 (fun d X Y => K1 d X Y) d1 D1).
    pose proof (all_below n2 adj2 w2 c2 S2 NN2 NB2 (fun d X Y => K2 d X Y) d2 D2).
    lia.
  Qed.
End Weighted.
