(** GenFacts: condition functions that may be undefined; the wrappers reduced to the builders of MExt. *)
From Verif Require Import Base BaseFacts MBits MUtils MGraph MApi MExt MGen Spec FindTwo ExtFacts.
From Coq Require Import Sorting.Sorted Sorting.Permutation.
Local Open Scope nat_scope.
Local Arguments Nat.sub : simpl never.
Local Arguments Nat.mul : simpl never.

Lemma rd_In {A} (l : list A) i x : rd l i = Ok x -> In x l.
Proof. unfold rd. destruct (nth_error l i) eqn:E; [|discriminate]. intros H. injection H as ->. eapply nth_error_In; eauto. Qed.

Definition defined (f : nat -> nat -> nat -> nat -> outcome bool) (i i' j j' : nat) : bool :=
  match f i i' j j' with Ok b => b | _ => false end.

Section Sim.
  Variables (tm : pdist -> pdist -> outcome pairs) (t : pdist -> pdist -> pairs) (s1 s2 : list pdist).

  Section Sound.
    Hypothesis H : forall x y l, tm x y = Ok l -> t x y = l.

    Lemma collect_sim x idx : forall l, collect (fun j => y <- rd s2 j;; tm x y) idx = Ok l -> collect (fun j => y <- rd s2 j;; Ok (t x y)) idx = Ok l.
    Proof.
      induction idx as [|j idx IH]; intros l E; cbn [collect] in *; auto.
      apply bind_ok in E. destruct E as (a & E1 & E). apply bind_ok in E. destruct E as (b & E2 & E). injection E as <-.
      apply bind_ok in E1. destruct E1 as (y & R & E1). rewrite R. cbn [bind]. rewrite (H _ _ _ E1), (IH _ E2). reflexivity.
    Qed.

    Lemma efr_loop_sim rnd n eps idx : forall lb ub rows, efr_loop rnd tm s1 s2 n eps idx lb ub = Ok rows ->
      efr_loop rnd (fun x y => Ok (t x y)) s1 s2 n eps idx lb ub = Ok rows.
    Proof.
      induction idx as [|i idx IH]; intros lb ub rows E; cbn [efr_loop] in *; auto.
      apply bind_ok in E. destruct E as (x & E1 & E). rewrite E1. cbn [bind]. cbv zeta in *.
      apply bind_ok in E. destruct E as ([f1 l1] & E2 & E). rewrite E2. cbn [bind]. destruct (f1 =? -1)%Z; auto.
      apply bind_ok in E. destruct E as ([f2 l2] & E3 & E). rewrite E3. cbn [bind].
      apply bind_ok in E. destruct E as (a & E4 & E). rewrite (collect_sim _ _ _ E4). cbn [bind].
      apply bind_ok in E. destruct E as (b & E5 & E). rewrite (IH _ _ _ E5). exact E.
    Qed.
  End Sound.

  Section Total.
    Hypothesis H : forall x y, In x s1 -> In y s2 -> tm x y = Ok (t x y).

    Lemma collect_same x idx : In x s1 -> collect (fun j => y <- rd s2 j;; tm x y) idx = collect (fun j => y <- rd s2 j;; Ok (t x y)) idx.
    Proof.
      intros I. induction idx as [|j idx IH]; cbn [collect]; auto. destruct (rd s2 j) as [y| |] eqn:R; cbn [bind]; auto.
      rewrite (H x y I (rd_In _ _ _ R)). cbn [bind]. rewrite IH. reflexivity.
    Qed.

    Lemma efr_loop_same rnd n eps idx : forall lb ub,
      efr_loop rnd tm s1 s2 n eps idx lb ub = efr_loop rnd (fun x y => Ok (t x y)) s1 s2 n eps idx lb ub.
    Proof.
      induction idx as [|i idx IH]; intros lb ub; cbn [efr_loop]; auto.
      destruct (rd s1 i) as [x| |] eqn:R; cbn [bind]; auto. cbv zeta.
      destruct (binary_find2 s2 n (rnd (d_dist x - eps)%Z) lb) as [[f1 l1]| |]; cbn [bind]; auto. destruct (f1 =? -1)%Z; auto.
      destruct (binary_find2 s2 n (rnd (rnd (d_dist x - eps) + 2 * eps)%Z) ub) as [[f2 l2]| |]; cbn [bind]; auto.
      rewrite (collect_same x _ (rd_In _ _ _ R)). destruct (collect _ _); cbn [bind]; auto. rewrite IH. reflexivity.
    Qed.
  End Total.
End Sim.

Lemma turn_sim f ba n x y l : efr_turn_m f ba n x y = Ok l -> efr_turn (defined f) ba n x y = l.
Proof.
  unfold efr_turn_m, efr_turn, defined. intros E. apply bind_ok in E. destruct E as (c1 & E1 & E). rewrite E1. destruct ba.
  - injection E as <-. apply app_nil_r.
  - apply bind_ok in E. destruct E as (c2 & E2 & E). rewrite E2. injection E as <-. reflexivity.
Qed.

Lemma build_m_sim srt p S1 S2 eps f r : build_edges_m srt p S1 S2 eps f = Ok r -> build_edges srt p S1 S2 eps (defined f) = Ok r.
Proof.
  unfold build_edges_m, build_edges, build_edges_r. rewrite !fill_dists_eq. cbn [bind]. intros E. apply bind_ok in E. destruct E as (rr & E1 & E).
  enough (efr_condition_r exact (mkR (m_n S1) (m_sym S1) (srt (entries (m_sym S1) (m_n S1) (m_d S1))))
            (mkR (m_n S2) (m_sym S2) (srt (entries (m_sym S2) (m_n S2) (m_d S2)))) eps (defined f) = Ok rr) as -> by exact E.
  revert E1. unfold efr_condition_m, efr_condition_r, relset_rows. cbn [rs_n rs_sym rs_dists]. destruct (_ || _); auto. cbv zeta.
  intros E1. apply bind_ok in E1. destruct E1 as (rows & E2 & E1). erewrite (efr_loop_sim _ (efr_turn (defined f) _ _)); [exact E1| |exact E2].
  apply turn_sim.
Qed.

Lemma build_m_same srt p S1 S2 eps f cf : sorts_dists srt ->
  (forall i i' j j', i < m_n S1 -> i' < m_n S1 -> j < m_n S2 -> j' < m_n S2 -> f i i' j j' = Ok (cf i i' j j')) ->
  build_edges_m srt p S1 S2 eps f = build_edges srt p S1 S2 eps cf.
Proof.
  intros Hs H. unfold build_edges_m, build_edges, build_edges_r. rewrite !fill_dists_eq. cbn [bind]. f_equal.
  unfold efr_condition_m, efr_condition_r, relset_rows. cbn [rs_n rs_sym rs_dists]. destruct (_ || _); auto. cbv zeta. f_equal.
  apply efr_loop_same. intros x y X Y. apply (t1_in srt S1 Hs) in X. destruct X as ((X1 & X2 & _) & _).
  apply (t2_in srt S2 Hs) in Y. destruct Y as ((Y1 & Y2 & _) & _). unfold efr_turn_m, efr_turn. rewrite !H by auto. cbn [bind].
  destruct (negb (m_sym S1) && negb (m_sym S2)); [rewrite app_nil_r|]; reflexivity.
Qed.

(** ** The wrappers *)
Section Wrap.
  Context {E1 E2 : Type}.

  Definition lift (g : gengraph E1 E2) (o : outcome (exc pygraph)) : outcome (exc (gengraph E1 E2)) :=
    r <- o;; match r with Raise e => Ok (Raise e) | Ret q => Ok (Ret (with_graph g q)) end.

  Lemma gen_build_eq_r rnd srt (g : gengraph E1 E2) f1 s1 f2 s2 : chosen1 g = (Some f1, s1) -> chosen2 g = (Some f2, s2) ->
    gen_build_edges_r rnd srt g = lift g (build_edges_metric_only_r rnd srt (gg_graph g) (mkM (len1 g) f1 s1) (mkM (len2 g) f2 s2) (gg_eps g)).
  Proof.
    intros C1 C2. unfold gen_build_edges_r, gen_fill, build_edges_metric_only_r, lift, fill_chosen. rewrite C1, C2. cbn [fst snd m_n m_d m_sym].
    rewrite !fill_dists_eq. cbn [bind]. destruct (edges_from_relsets_r _ _ _ _) as [[rows|e]| |]; cbn [bind]; auto.
    destruct (load_rows _ _ _); reflexivity.
  Qed.

  Lemma gen_cond_eq_r rnd srt (g : gengraph E1 E2) cf f1 s1 f2 s2 : chosen1 g = (Some f1, s1) -> chosen2 g = (Some f2, s2) ->
    gen_build_with_condition_r rnd srt g cf false = lift g (build_edges_r rnd srt (gg_graph g) (mkM (len1 g) f1 s1) (mkM (len2 g) f2 s2) (gg_eps g) cf).
  Proof.
    intros C1 C2. unfold gen_build_with_condition_r, gen_fill, build_edges_r, lift, fill_chosen. rewrite C1, C2. cbn [fst snd m_n m_d m_sym].
    rewrite !fill_dists_eq. cbn [bind]. destruct (efr_condition_r _ _ _ _ _) as [[rows|e]| |]; cbn [bind]; auto.
    destruct (load_rows _ _ _); reflexivity.
  Qed.

  Lemma gen_build_eq srt (g : gengraph E1 E2) f1 s1 f2 s2 : chosen1 g = (Some f1, s1) -> chosen2 g = (Some f2, s2) ->
    gen_build_edges srt g = lift g (build_edges_metric_only srt (gg_graph g) (mkM (len1 g) f1 s1) (mkM (len2 g) f2 s2) (gg_eps g)).
  Proof. exact (gen_build_eq_r exact srt g f1 s1 f2 s2). Qed.

  Lemma gen_cond_eq srt (g : gengraph E1 E2) cf f1 s1 f2 s2 : chosen1 g = (Some f1, s1) -> chosen2 g = (Some f2, s2) ->
    gen_build_with_condition srt g cf false = lift g (build_edges srt (gg_graph g) (mkM (len1 g) f1 s1) (mkM (len2 g) f2 s2) (gg_eps g) cf).
  Proof. exact (gen_cond_eq_r exact srt g cf f1 s1 f2 s2). Qed.

  Lemma gen_none1 srt (g : gengraph E1 E2) : fst (chosen1 g) = None -> 2 <= len1 g ->
    gen_build_edges srt g = Ok (Raise ENoMetric) /\ forall cf, gen_build_with_condition srt g cf false = Ok (Raise ENoMetric).
  Proof.
    intros C L. unfold gen_build_with_condition, gen_build_with_condition_r, gen_build_edges, gen_build_edges_r, gen_fill, fill_chosen. rewrite C.
    destruct (Nat.ltb_spec (len1 g) 2); [lia|]. auto.
  Qed.

  Lemma gen_none2 srt (g : gengraph E1 E2) : (fst (chosen1 g) <> None \/ len1 g < 2) -> fst (chosen2 g) = None -> 2 <= len2 g ->
    gen_build_edges srt g = Ok (Raise ENoMetric) /\ forall cf, gen_build_with_condition srt g cf false = Ok (Raise ENoMetric).
  Proof.
    intros C1 C L. unfold gen_build_with_condition, gen_build_with_condition_r, gen_build_edges, gen_build_edges_r, gen_fill, fill_chosen. rewrite C.
    destruct (Nat.ltb_spec (len2 g) 2); [lia|]. destruct (fst (chosen1 g)).
    - rewrite !fill_dists_eq. auto.
    - destruct C1 as [C1|C1]; [congruence|]. destruct (Nat.ltb_spec (len1 g) 2); [|lia]. rewrite !fill_dists_eq. auto.
  Qed.
End Wrap.

Lemma pick_elems_ok {E} (l : list E) idx : (forall i, In i idx -> i < length l) ->
  exists xs, pick_elems l idx = Ret xs /\ Forall2 (fun i x => nth_error l i = Some x) idx xs.
Proof.
  induction idx as [|i idx IH]; intros H; cbn [pick_elems]; [exists []; auto|].
  destruct IH as (xs & E1 & F); [intros; apply H; right; auto|]. destruct (nth_error l i) as [x|] eqn:X.
  - rewrite E1. exists (x :: xs). auto.
  - apply nth_error_None in X. specialize (H i (or_introl eq_refl)). lia.
Qed.
