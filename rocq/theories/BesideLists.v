(** BesideLists: what NWGraph's all_cliques lists for two graphs side by side (C108). *)
From Verif Require Import Base MUtils MGraph MEnum MApi MNW MNWEnum MNWApi MExt Spec SpecNW SpecOrder SpecBeside LoadFacts SearchProps OrderFacts LexFacts SetFacts SortFacts ContFacts FirstFacts EnumCalls LoneFacts NWProps NWSame BesideFacts.
From Coq Require Import Sorting.Sorted.
Local Open Scope nat_scope.

Section Lists.
  Variables (n1 n2 : nat) (adj1 adj2 adj : nat -> nat -> Prop) (w1 w2 w : list Z).
  Hypothesis B : beside n1 adj1 adj2 adj.
  Hypothesis BW : weights_beside n1 w1 w2 w.
  Hypothesis S1 : simple n1 adj1.
  Hypothesis S2 : simple n2 adj2.

  Let left_weight c : (forall v, In v c -> 1 <= v <= n1) -> weight w c = weight w1 c.
  Proof. induction c as [|x c IH]; intros R; [reflexivity|]. cbn [weight]. rewrite IH by (intros; apply R; cbn; auto). rewrite (proj1 BW) by (apply R; cbn; auto). reflexivity. Qed.

  Let right_weight c : (forall v, In v c -> 1 <= v) -> weight w (shift n1 c) = weight w2 c.
  Proof.
    unfold shift. induction c as [|x c IH]; intros R; [reflexivity|]. cbn [map weight]. rewrite IH by (intros; apply R; cbn; auto). rewrite (proj2 BW) by (apply R; cbn; auto). reflexivity.
  Qed.

  Lemma low1 x y : adj1 x y -> 1 <= y <= n1.
  Proof. intros A. destruct (S1 x y A) as (A' & _). destruct (S1 y x A') as (_ & _ & R). exact R. Qed.

  Lemma low2 x y : adj2 x y -> 1 <= y.
  Proof. intros A. destruct (S2 x y A) as (A' & _). destruct (S2 y x A') as (_ & _ & R). lia. Qed.

  Lemma wdegree_first x y : 1 <= x <= n1 -> wdegree adj w x y <-> wdegree adj1 w1 x y.
  Proof.
    intros L. split; intros (l & N & H & E); exists l; (split; [exact N|]).
    - assert (H' : forall u, In u l <-> u = x \/ adj1 x u) by (intros u; rewrite H, (left_adj n1 n2 adj1 adj2 adj B S2) by lia; reflexivity).
      split; [exact H'|]. rewrite E. apply left_weight. intros v I. apply H' in I. destruct I as [-> |A]; [exact L|exact (low1 _ _ A)].
    - split; [intros u; rewrite H, (left_adj n1 n2 adj1 adj2 adj B S2) by lia; reflexivity|].
      rewrite E. symmetry. apply left_weight. intros v I. apply H in I. destruct I as [-> |A]; [exact L|exact (low1 _ _ A)].
  Qed.

  Lemma wdegree_second x y : 1 <= x -> wdegree adj w (n1 + x) y <-> wdegree adj2 w2 x y.
  Proof.
    intros L. split; intros (l & N & H & E).
    - assert (R : forall v, In v l -> n1 < v).
      { intros v I. apply H in I. destruct I as [-> |I]; [lia|]. apply (right_adj n1 adj1 adj2 adj B S1 x) in I; [|exact L]. destruct I as (z & -> & A). apply low2 in A. lia. }
      destruct (shift_back n1 l R) as (l2 & ->). exists l2. split; [unfold shift in N; apply NoDup_map_inv in N; exact N|].
      assert (H2 : forall u, In u l2 <-> u = x \/ adj2 x u).
      { intros u. split.
        - intros I. assert (J : n1 + u = n1 + x \/ adj (n1 + x) (n1 + u)) by (apply H; apply shift_in; exists u; auto). destruct J as [J|J]; [left; lia|].
          apply (right_adj n1 adj1 adj2 adj B S1 x) in J; [|exact L]. destruct J as (z & E2 & A). right. replace u with z by lia. exact A.
        - intros A. assert (J : In (n1 + u) (shift n1 l2)).
          { apply H. destruct A as [-> |A]; [auto|]. right. apply (right_adj n1 adj1 adj2 adj B S1 x); [exact L|]. exists u. auto. }
          apply shift_in in J. destruct J as (z & I & E2). replace u with z by lia. exact I. }
      split; [exact H2|]. rewrite E. apply right_weight. intros v I. apply H2 in I. destruct I as [-> |A]; [exact L|apply (low2 _ _ A)].
    - exists (shift n1 l). split; [unfold shift; apply FinFun.Injective_map_NoDup; [intros a b; lia|exact N]|]. split.
      + intros u. rewrite shift_in, (right_adj n1 adj1 adj2 adj B S1 x) by exact L. split.
        * intros (z & Z & ->). apply H in Z. destruct Z as [-> |A]; [auto|]. right. exists z. auto.
        * intros [-> |(z & -> & A)]; [exists x|exists z]; (split; [apply H; auto|reflexivity]).
      + rewrite E. symmetry. apply right_weight. intros v I. apply H in I. destruct I as [-> |A]; [exact L|apply (low2 _ _ A)].
  Qed.

  Lemma starts_first c v : (forall u, In u c -> 1 <= u <= n1) -> starts_at adj w c v <-> starts_at adj1 w1 c v.
  Proof.
    intros R. split; intros (I & H); (split; [exact I|]); intros u xv xu U NE XV XU; apply (H u); auto; apply wdegree_first; auto.
  Qed.

  Lemma starts_second c v : (forall u, In u c -> 1 <= u) -> starts_at adj w (shift n1 c) (n1 + v) <-> starts_at adj2 w2 c v.
  Proof.
    intros R. split; intros (I & H).
    - apply shift_in in I. destruct I as (z & I & E). assert (z = v) by lia. subst z. split; [exact I|]. intros u xv xu U NE XV XU.
      destruct (H (n1 + u) xv xu) as [X|[X Y]]; [apply shift_in; exists u; auto|lia|apply wdegree_second; auto|apply wdegree_second; auto|left; exact X|right; split; [exact X|lia]].
    - split; [apply shift_in; exists v; auto|]. intros u xv xu U NE XV XU. apply shift_in in U. destruct U as (z & U & ->). apply wdegree_second in XV, XU; auto.
      destruct (H z xv xu U ltac:(lia) XV XU) as [X|[X Y]]; [left; exact X|right; split; [exact X|lia]].
  Qed.

  Lemma heavy_first T c v : clique n1 adj1 c -> heavy_minimal (n1 + n2) adj w T c v <-> heavy_minimal n1 adj1 w1 T c v.
  Proof.
    intros C. pose proof (proj1 (proj2 C)) as R. unfold heavy_minimal. rewrite (starts_first c v R), (left_weight c R).
    assert (Y : forall u, weight w (remove Nat.eq_dec u c) = weight w1 (remove Nat.eq_dec u c)).
    { intros u. apply left_weight. intros x I. apply in_remove in I. apply R, I. }
    split; intros (K & L & W & ST & u & EN & H); (split; [|]); [exact C| |apply (clique_left n1 n2 adj1 adj2 adj B); exact C|];
      (split; [exact L|]; split; [exact W|]; split; [exact ST|]; exists u; split; [exact EN|]); [rewrite <- Y|rewrite Y]; exact H.
  Qed.

  Lemma heavy_second T c v : (forall u, In u c -> 1 <= u) -> heavy_minimal (n1 + n2) adj w T (shift n1 c) (n1 + v) <-> heavy_minimal n2 adj2 w2 T c v.
  Proof.
    intros R. unfold heavy_minimal. rewrite (starts_second c v R), (right_weight c R). unfold shift at 2. rewrite map_length.
    assert (X : (exists u, ends_at (shift n1 c) (n1 + v) u /\ (length (remove Nat.eq_dec u (shift n1 c)) = 1 \/ (weight w (remove Nat.eq_dec u (shift n1 c)) < T)%Z))
      <-> exists u, ends_at c v u /\ (length (remove Nat.eq_dec u c) = 1 \/ (weight w2 (remove Nat.eq_dec u c) < T)%Z)).
    { assert (Y : forall u, length (remove Nat.eq_dec (n1 + u) (shift n1 c)) = length (remove Nat.eq_dec u c)
        /\ weight w (remove Nat.eq_dec (n1 + u) (shift n1 c)) = weight w2 (remove Nat.eq_dec u c)).
      { intros u. rewrite shift_remove. split; [apply map_length|]. apply right_weight. intros x I. apply in_remove in I. apply R, I. }
      split.
      - intros (u & EN & H). pose proof EN as (I & _). apply shift_in in I. destruct I as (z & I & ->). destruct (Y z) as (Y1 & Y2). rewrite Y1, Y2 in H.
        exists z. split; [apply (ends_right n1); exact EN|exact H].
      - intros (u & EN & H). destruct (Y u) as (Y1 & Y2). exists (n1 + u). rewrite Y1, Y2. split; [apply (ends_right n1); exact EN|exact H]. }
    rewrite X. split; intros (C & H); (split; [|exact H]); apply (clique_right n1 n2 adj1 adj2 adj B S1 c); auto.
  Qed.
End Lists.

Lemma beside_heavy rnd p1 p2 p n1 n2 adj1 adj2 adj w1 w2 w : beside n1 adj1 adj2 adj -> weights_beside n1 w1 w2 w ->
  nmade rnd p1 n1 adj1 w1 -> nmade rnd p2 n2 adj2 w2 -> nmade rnd p (n1 + n2) adj w -> has_edge adj1 -> has_edge adj2 ->
  nstorage_live p1 -> nstorage_live p2 -> nstorage_live p -> sums_exact rnd w1 -> sums_exact rnd w2 -> sums_exact rnd w -> rises rnd ->
  nonnegative w1 -> nonnegative w2 -> nonnegative w ->
  forall e1 e2 e T lr1 lr2 lr, exists a1 a2 a q1 b1 l1 q2 b2 l2 q b l x,
    nw_all_cliques e1 p1 T = Ret a1 /\ nw_all_cliques e2 p2 T = Ret a2 /\ nw_all_cliques e p T = Ret a
    /\ (forall fuel, length l1 < fuel -> nw_drain rnd fuel lr1 p1 a1 = Ok (q1, b1, l1)) /\ (forall fuel, length l2 < fuel -> nw_drain rnd fuel lr2 p2 a2 = Ok (q2, b2, l2))
    /\ (forall fuel, length l < fuel -> nw_drain rnd fuel lr p a = Ok (q, b, l))
    /\ l = l1 ++ map (shift n1) (x ++ l2) /\ forall d, In d x <-> heavy_minimal n2 adj2 w2 T d 1.
Proof.
  intros B BW M1 M2 M HE1 HE2 LV1 LV2 LV SE1 SE2 SE RI NN1 NN2 NN e1 e2 e T lr1 lr2 lr.
  assert (S1 : simple n1 adj1) by (destruct (nmade_made _ _ _ _ _ M1) as [_ MD]; apply (made_simple _ _ _ MD)).
  assert (S2 : simple n2 adj2) by (destruct (nmade_made _ _ _ _ _ M2) as [_ MD]; apply (made_simple _ _ _ MD)).
  assert (HE : has_edge adj) by (destruct HE1 as (u & v & A); exists u, v; apply B; auto).
  assert (N1 : 1 <= n1) by (destruct HE1 as (u & v & A); destruct (S1 u v A) as (_ & _ & R); lia).
  destruct (nw_lists rnd p1 n1 adj1 w1 M1 HE1 LV1 SE1 RI NN1 p1 e1 T lr1 (nu_start _ _ _ _ _)) as (a1 & q1 & b1 & l1 & E1 & D1 & O1 & C1).
  destruct (nw_lists rnd p2 n2 adj2 w2 M2 HE2 LV2 SE2 RI NN2 p2 e2 T lr2 (nu_start _ _ _ _ _)) as (a2 & q2 & b2 & l2 & E2 & D2 & O2 & C2).
  destruct (nw_lists rnd p (n1 + n2) adj w M HE LV SE RI NN p e T lr (nu_start _ _ _ _ _)) as (a & q & b & l & E & D & O & C).
  pose proof (heavy_first n1 n2 adj1 adj2 adj w1 w2 w B BW S1 S2 T) as HF. pose proof (heavy_second n1 n2 adj1 adj2 adj w1 w2 w B BW S1 S2 T) as HS.
  assert (POS : forall c v, heavy_minimal n2 adj2 w2 T c v -> forall u, In u c -> 1 <= u) by (intros c v (K & _) u U; apply (proj1 (proj2 K)) in U; lia).
  assert (LOW : forall c v, heavy_minimal n1 adj1 w1 T c v -> 1 <= v <= n1) by (intros c v (K & _ & _ & (I & _) & _); apply (proj1 (proj2 K) v I)).
  assert (POSV : forall c v, heavy_minimal n2 adj2 w2 T c v -> 1 <= v) by (intros c v H; apply (POS c v H); apply H).
  assert (ALL : forall d, In d l <-> In d l1 \/ exists c v, d = shift n1 c /\ heavy_minimal n2 adj2 w2 T c v).
  { intros d. rewrite C, C1. split.
    - intros (v & NV & H). pose proof H as (CL & _ & _ & (I & _) & _). destruct (clique_split n1 n2 adj1 adj2 adj B S1 S2 d CL) as [K|(c & K & ->)].
      + left. exists v. split; [exact NV|]. apply (HF d v K). exact H.
      + right. apply shift_in in I. destruct I as (z & I & ->). exists c, z. split; [reflexivity|].
        apply HS; [|exact H]. intros u U. apply (proj1 (proj2 K)) in U. lia.
    - intros [(v & NV & H)|(c & v & -> & H)].
      + exists v. split; [exact NV|]. apply HF; [exact (proj1 H)|exact H].
      + exists (n1 + v). split; [pose proof (POSV _ _ H); lia|]. apply HS; [exact (POS _ _ H)|exact H]. }
  set (dec := list_eq_dec Nat.eq_dec).
  set (keep := fun d => if in_dec dec d l1 then false else if in_dec dec d (map (shift n1) l2) then false else true).
  set (x := map (map (fun v => v - n1)) (filter keep l)).
  assert (KX : forall d, In d (filter keep l) <-> exists c, d = shift n1 c /\ heavy_minimal n2 adj2 w2 T c 1).
  { intros d. rewrite filter_In, ALL. unfold keep. split.
    - intros (I & KE). destruct (in_dec dec d l1) as [|X1]; [discriminate|]. destruct (in_dec dec d (map (shift n1) l2)) as [|X2]; [discriminate|].
      destruct I as [I|(c & v & -> & H)]; [contradiction|]. exists c. split; [reflexivity|].
      destruct (Nat.eq_dec v 1) as [-> |NV]; [exact H|]. exfalso. apply X2, in_map, C2. exists v. auto.
    - intros (c & -> & H). split; [right; exists c, 1; auto|]. destruct (in_dec dec (shift n1 c) l1) as [I|_].
      { apply C1 in I. destruct I as (v & _ & H1). destruct H1 as ((_ & R & _) & _). pose proof H as (_ & _ & _ & (I & _) & _).
        specialize (R (n1 + 1)). rewrite shift_in in R. specialize (R (ex_intro _ 1 (conj I eq_refl))). lia. }
      destruct (in_dec dec (shift n1 c) (map (shift n1) l2)) as [I|_]; [|reflexivity]. exfalso.
      apply in_map_iff in I. destruct I as (c' & ES & I). apply shift_inj in ES. subst c'. apply C2 in I. destruct I as (v & NV & H'). apply NV.
      apply (starts_one rnd p2 n2 adj2 w2 c v 1 M2); [apply H|apply H'|apply H]. }
  assert (EX : map (shift n1) x = filter keep l).
  { unfold x. rewrite map_map. rewrite <- (map_id (filter keep l)) at 2. apply map_ext_in. intros d I. apply KX in I. destruct I as (c & -> & _).
    unfold shift. rewrite !map_map. apply map_ext. intros v. lia. }
  exists a1, a2, a, q1, b1, l1, q2, b2, l2, q, b, l, x. split; [exact E1|]. split; [exact E2|]. split; [exact E|]. split; [exact D1|]. split; [exact D2|]. split; [exact D|].
  split.
  - rewrite map_app, EX. apply (sorted_equal (nw_listed_before (n1 + n2) adj w T)).
    + intros y z _ _. apply (nw_listed_asym rnd p (n1 + n2) adj w T y z M).
    + exact O.
    + assert (RIGHT : forall d, In d (filter keep l ++ map (shift n1) l2) -> exists v, n1 < v /\ heavy_minimal (n1 + n2) adj w T d v).
      { intros d I. apply in_app_iff in I.
        assert (X : exists c v, d = shift n1 c /\ heavy_minimal n2 adj2 w2 T c v).
        { destruct I as [I|I]; [apply KX in I; destruct I as (c & -> & H); exists c, 1; auto|].
          apply in_map_iff in I. destruct I as (c & <- & I). apply C2 in I. destruct I as (v & _ & H). exists c, v. auto. }
        destruct X as (c & v & -> & H). exists (n1 + v). split; [pose proof (POSV _ _ H); lia|]. apply HS; [exact (POS _ _ H)|exact H]. }
      apply sorted_app_iff. split; [|split].
      * clear - O1 HF. induction O1 as [|y l0 SO IH F]; constructor; [exact IH|]. rewrite Forall_forall in *. intros z I.
        destruct (F z I) as (v & v' & H & H' & X). exists v, v'. split; [apply HF; [apply H|exact H]|]. split; [apply HF; [apply H'|exact H']|exact X].
      * apply sorted_app_iff. split; [apply filter_sorted; exact O|]. split.
        -- clear - O2 HS POS. induction O2 as [|y l0 SO IH F]; cbn [map]; constructor; [exact IH|]. rewrite Forall_forall in *. intros z I.
           apply in_map_iff in I. destruct I as (z2 & <- & I). destruct (F z2 I) as (v & v' & H & H' & X).
           exists (n1 + v), (n1 + v'). split; [apply HS; [exact (POS _ _ H)|exact H]|]. split; [apply HS; [exact (POS _ _ H')|exact H']|].
           destruct X as [X|[-> X]]; [left; lia|right; split; [reflexivity|apply lex_shift; exact X]].
        -- intros y z I J. apply KX in I. destruct I as (c & -> & H). apply in_map_iff in J. destruct J as (c' & <- & J). apply C2 in J. destruct J as (v & NV & H').
           exists (n1 + 1), (n1 + v). split; [apply HS; [exact (POS _ _ H)|exact H]|]. split; [apply HS; [exact (POS _ _ H')|exact H']|].
           left. pose proof (POSV _ _ H'). lia.
      * intros y z I J. apply C1 in I. destruct I as (v & _ & H). destruct (RIGHT z J) as (v' & L & H'). exists v, v'.
        split; [apply HF; [apply H|exact H]|]. split; [exact H'|]. left. pose proof (LOW _ _ H). lia.
    + intros d. rewrite !in_app_iff, ALL, KX, in_map_iff. split.
      * intros [I|[(c & -> & H)|(c & <- & I)]]; [auto|right; exists c, 1; auto|]. apply C2 in I. destruct I as (v & _ & H). right. exists c, v. auto.
      * intros [I|(c & v & -> & H)]; [auto|]. right. destruct (Nat.eq_dec v 1) as [-> |NV]; [left; exists c; auto|]. right. exists c. split; [reflexivity|].
        apply C2. exists v. auto.
  - intros d. split.
    + intros I. apply (in_map (shift n1)) in I. rewrite EX in I. apply KX in I. destruct I as (c & ES & H). apply shift_inj in ES. subst c. exact H.
    + intros H. assert (I : In (shift n1 d) (filter keep l)) by (apply KX; exists d; auto). rewrite <- EX in I. apply in_map_iff in I.
      destruct I as (c & ES & I). apply shift_inj in ES. subst c. exact I.
Qed.
