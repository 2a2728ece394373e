(** NWNestProps: the statements about nested loops over NWGraph.all_cliques, assembled for P_NWNest. *)
From Verif Require Import Base MBits MUtils MGraph MHeur MApi MNW MNWEnum MNWApi Spec SpecNW SpecNWNest SpecOrder SpecBits BaseFacts BitsFacts SetFacts RowFacts ConstructFacts CardFacts LoadFacts SearchBase StackFacts CliqueFacts NWSum NWBase NWStack NWSearch NWFacts NWEnumFacts NWEnumApi ApiFacts LoadProps NWProps NWSame NWNestFacts.
From Coq Require Import Sorting.Sorted.
Local Open Scope nat_scope.

Section Rounding.
Variables (rnd : Z -> Z) (p : pynw) (n : nat) (adj : nat -> nat -> Prop) (w : list Z).
Hypothesis MK : nmade rnd p n adj w.
Hypothesis HE : has_edge adj.
Hypothesis LV : nstorage_live p.

Notation positive := (positive_weights rnd w).
Definition exactly (full : bool) : Prop := full = true -> sums_exact rnd w /\ rises rnd /\ nonnegative w.

Lemma nmade_nlinv lr full : exactly full -> exists a B, gra a n adj /\ length w = n /\ 1 <= n /\ 1 <= B
  /\ (forall k, k < n + 1 -> forall K, pclique a k K -> card (rlen a k) K <= B)
  /\ (full = true -> wexact a (mkwts (vweight w) rnd) /\ wmono (mkwts (vweight w) rnd) /\ forall u, u < n + 1 -> (0 <= mkwts (vweight w) rnd u)%Z)
  /\ nlinv a n w rnd lr full positive B [] p.
Proof.
  intros FU. destruct (nmade_fresh _ _ _ _ _ MK) as (a & cap & m & GR & LW & NF). pose proof (has_edge_n _ _ _ GR HE) as Hn.
  destruct LV as (g & EG & HL). pose proof NF as (W & EP & B0 & F1 & F2 & F3 & F4 & F5 & F6).
  assert (EQ : q_G p = Some W) by (rewrite EP; reflexivity).
  rewrite EP in EG. cbn [nw_as_pygraph q_G option_map p_G] in EG. injection EG as EG. subst g.
  destruct (nfresh_room a n adj w rnd GR LW p m cap W NF EQ HE HL) as (B & HB1 & HB & SC & RM).
  destruct (nfresh_good a n adj w rnd GR LW p m cap W NF EQ HE HL) as [[X1 X2 X3 X4 X5 X6 X7 X8] Z1].
  exists a, B. do 4 (split; auto). split; [intros k Hk; apply HB; auto|]. split.
  { intros E. destruct (FU E) as (SE & MO & NN). split; [exact (exact_sums a n adj w rnd GR LW SE)|]. split; [exact MO|]. intros. apply vweight_nonneg; auto. }
  exists W, (bound a), m, 0, false. split; auto. split; auto.
  - rewrite <- SC. auto.
  - intros k Hk. apply HB; auto.
  - intros (SE & NN & PX). clear - MK HE LV SE NN PX EQ. destruct (nmade_inv rnd p n adj w MK HE LV) as (a & _ & _ & _ & _ & QP & _).
    destruct (QP SE NN PX) as (W1 & E & L). rewrite EQ in E. injection E as <-. auto.
  - intros E. destruct (FU E) as (SE & MO & NN). pose proof (gra_ctx a n adj GR) as HC. pose proof (exact_sums a n adj w rnd GR LW SE) as EX.
    assert (RW : forall v, v < n + 1 -> nheavy a (mkwts (vweight w) rnd) v (wbnd a (mkwts (vweight w) rnd) v)).
    { intros v Hv K R _ _. apply (rooted_weight a (n + 1) v (mkwts (vweight w) rnd) HC Hv); auto. intros. apply vweight_nonneg; auto. }
    split.
    + intros v Hv. eapply nheavy_le; [apply (F5 v Hv)|]. apply RW; auto.
    + intros v x Hv Hx. rewrite F3 in Hx. rewrite nth_error_map, (nth_error_nth' _ 0) in Hx by (rewrite seq_length; auto).
      rewrite seq_nth in Hx by auto. cbn [option_map Nat.add] in Hx. injection Hx as <-. apply RW; auto.
Qed.

Lemma nwloops_weaken lr full st q : nwloops rnd n adj w lr full p st q -> nwloops rnd n adj w lr false p st q.
Proof. induction 1; econstructor; eauto; discriminate. Qed.

Lemma not_full : exactly false.
Proof. intros E. discriminate E. Qed.

Lemma nw_nest_search lr full st q e lb ub heur dfs : nwloops rnd n adj w lr full p st q -> nw_roomleft n adj st -> npermutes e ->
  ends_with (nw_get_max_clique rnd e q lb ub heur dfs) (fun r =>
    match snd r with
    | Ret c => (c = [0] /\ ~ positive \/ clique n adj c) /\ (sums_exact rnd w -> lb <= weight w c)%Z
    | Raise x => x = EBounds
    end).
Proof.
  intros H F HP. destruct (nmade_nlinv lr false not_full) as (a & B & GR & LW & Hn & HB1 & HB & FN & I).
  pose proof (nwloops_nlinv a n adj w rnd GR LW lr false positive B HB1 HB FN p st q Hn I (nwloops_weaken _ _ _ _ H)) as J.
  eapply wp_mono; [apply (nlinv_get a n adj w rnd GR LW lr false positive B HB1 HB FN st q e lb ub heur dfs Hn J F HP); discriminate|].
  intros r [_ X]. exact X.
Qed.

Lemma nw_nest_items lr full st q T en l : nwloops rnd n adj w lr full p st q -> In (mkNL T en l) st ->
  NoDup l /\ forall d, In d l -> clique n adj d /\ 2 <= length d /\ (sums_exact rnd w -> exists v, v <> 1 /\ heavy_minimal n adj w T d v).
Proof.
  intros H I. destruct (nmade_nlinv lr false not_full) as (a & B & GR & LW & Hn & HB1 & HB & FN & I0).
  destruct (nwloops_nlinv a n adj w rnd GR LW lr false positive B HB1 HB FN p st q Hn I0 (nwloops_weaken _ _ _ _ H)) as (W & mcs & m & cu & fin & -> & L).
  destruct (nstacked_items a n adj w rnd GR LW lr false B HB1 W st _ (nlg_stack _ _ _ _ _ _ _ _ _ _ _ L) _ I) as [N C]. split; auto.
  intros d Id. destruct (C d Id) as (C1 & C2 & C3). split; auto. split; auto. intros SE. apply C3. exact (exact_sums a n adj w rnd GR LW SE).
Qed.

Lemma nw_one_roomleft lr full x q : nwloops rnd n adj w lr full p [x] q -> nw_roomleft n adj [x].
Proof.
  intros H. destruct x as [T en l]. destruct (nw_nest_items lr full _ q T en l H (or_introl eq_refl)) as [_ C].
  destruct l as [|c l] using rev_ind.
  - exists []. split; [split; [constructor|split; [intros v []|intros u v []]]|]. cbn [waiting nl_items last length]. lia.
  - exists c. split; [apply C, in_app_iff; right; left; auto|]. cbn [waiting nl_items]. rewrite last_last. lia.
Qed.

Lemma nw_outer_roomleft lr full x y q : nwloops rnd n adj w lr full p [y; x] q -> nw_roomleft n adj [x].
Proof.
  intros H. destruct x as [T en l]. destruct (nw_nest_items lr full _ q T en l H (or_intror (or_introl eq_refl))) as [_ C].
  destruct l as [|c l] using rev_ind.
  - exists []. split; [split; [constructor|split; [intros v []|intros u v []]]|]. cbn [waiting nl_items last length]. lia.
  - exists c. split; [apply C, in_app_iff; right; left; auto|]. cbn [waiting nl_items]. rewrite last_last. lia.
Qed.

Lemma nw_one_search lr full x q e lb ub heur dfs : nwloops rnd n adj w lr full p [x] q -> npermutes e ->
  ends_with (nw_get_max_clique rnd e q lb ub heur dfs) (fun r =>
    match snd r with
    | Ret c => (c = [0] /\ ~ positive \/ clique n adj c) /\ (sums_exact rnd w -> lb <= weight w c)%Z
    | Raise x => x = EBounds
    end).
Proof. intros H. eapply nw_nest_search; eauto. eapply nw_one_roomleft; eauto. Qed.

Lemma nw_nest_heaviest lr st q q' e lb ub heur : sums_exact rnd w -> rises rnd -> nonnegative w ->
  nwloops rnd n adj w lr true p st q -> nw_roomleft n adj st -> nw_reset_search q = Ok q' -> npermutes e -> all_within n adj w ub ->
  ends_with (nw_get_max_clique rnd e q' lb ub heur true) (fun r => match snd r with
     | Ret c => all_within n adj w (weight w c)
     | Raise x => x = EBounds /\ all_within n adj w lb
     end).
Proof.
  intros SE MO NN H F ER HP AW. destruct (nmade_nlinv lr true (fun _ => conj SE (conj MO NN))) as (a & B & GR & LW & Hn & HB1 & HB & FN & I).
  destruct (nwloops_nlinv a n adj w rnd GR LW lr true positive B HB1 HB FN p st q Hn I H) as (W0 & mcs & m & cu & fin & -> & L0). injection ER as <-.
  pose proof (nlgraph_reset a n w rnd LW lr true positive B HB1 st W0 mcs L0) as L.
  match goal with |- context [mkQ (Some ?X) _ _ _ _] => set (W := X) in * end.
  pose proof (nlgraph_good a n adj w rnd GR LW lr true positive B HB1 HB st W mcs L F) as G. destruct (nlg_full _ _ _ _ _ _ _ _ _ _ _ L eq_refl) as [WD SV].
  eapply wp_mono; [apply (nw_get_core a n adj w rnd GR LW e W mcs m 0 false lb ub heur true HP Hn G)|].
  intros [q1 r] (W' & cur' & c & x & E1 & E2 & EX & [A1 A2 A3 A4 A5 A6 A7]). cbn [fst snd] in *. rewrite (EX SE) in E2. subst r.
  pose proof (exact_sums a n adj w rnd GR LW SE) as SX.
  destruct (A7 (conj SX (fun u _ => vweight_nonneg w NN u)) (prepared_wide rnd n adj w a W lb ub GR LW AW WD) SV) as [_ AL]. specialize (AL eq_refl).
  cbn [W w_size] in A6. pose proof (weight_nonneg w c NN) as WN.
  assert (AM : (lb <= weight w c)%Z -> all_within n adj w (weight w c)).
  { intros X d C L2. pose proof (AL d C L2). destruct A6 as [[E _]|[E _]]; try specialize (E SX); lia. }
  destruct (Z.ltb_spec (weight w c) lb); auto. split; auto. intros d C L2. pose proof (AL d C L2). destruct A6 as [[E _]|[E _]]; try specialize (E SX); lia.
Qed.

Lemma nw_nest_next lr full st q T en l : (full = true -> sums_exact rnd w /\ rises rnd /\ nonnegative w) ->
  nwloops rnd n adj w lr full p (mkNL T en l :: st) q -> nw_roomleft n adj st ->
  ends_with (nw_next_clique rnd lr q en) (fun r =>
    match snd r with
    | Ret c => clique n adj c /\ 2 <= length c /\ ~ In c l /\ (sums_exact rnd w -> exists v, v <> 1 /\ heavy_minimal n adj w T c v)
    | Raise x => x = EStopIteration /\ (full = true -> forall d v, heavy_minimal n adj w T d v -> v <> 1 -> In d l)
    end).
Proof.
  intros FU H F. destruct (nmade_nlinv lr full FU) as (a & B & GR & LW & Hn & HB1 & HB & FN & I0).
  pose proof (nwloops_nlinv a n adj w rnd GR LW lr full positive B HB1 HB FN p _ q Hn I0 H) as I.
  eapply wp_mono; [apply (nlinv_next a n adj w rnd GR LW lr full positive B HB1 HB FN st q T en l I F)|].
  intros [[q' en'] [c|x]]; cbn [snd].
  - intros (_ & C1 & C2 & C3 & C4). split; auto. split; auto. split; auto. intros SE. apply C4. exact (exact_sums a n adj w rnd GR LW SE).
  - intros (-> & _ & C). auto.
Qed.

Lemma nw_two_next lr full x q T en l : (full = true -> sums_exact rnd w /\ rises rnd /\ nonnegative w) ->
  nwloops rnd n adj w lr full p [mkNL T en l; x] q ->
  ends_with (nw_next_clique rnd lr q en) (fun r =>
    match snd r with
    | Ret c => clique n adj c /\ 2 <= length c /\ ~ In c l /\ (sums_exact rnd w -> exists v, v <> 1 /\ heavy_minimal n adj w T c v)
    | Raise x => x = EStopIteration /\ (full = true -> forall d v, heavy_minimal n adj w T d v -> v <> 1 -> In d l)
    end).
Proof. intros FU H. apply (nw_nest_next lr full [x]); auto. eapply nw_outer_roomleft; eauto. Qed.

Lemma nw_nest_whole lr st q T en l : sums_exact rnd w -> rises rnd -> nonnegative w ->
  nwloops rnd n adj w lr true p (mkNL T en l :: st) q -> nw_roomleft n adj st ->
  ends_with (nw_next_clique rnd lr q en) (fun r => forall e, exists en0 q0 en1 L, nw_all_cliques e p T = Ret en0
    /\ (forall fuel, length L < fuel -> nw_drain rnd fuel lr p en0 = Ok (q0, en1, L))
    /\ match snd r with
       | Ret c => exists rest, L = l ++ c :: rest
       | Raise x => x = EStopIteration /\ L = l
       end).
Proof.
  intros SE MO NN H F. destruct (nmade_nlinv lr true (fun _ => conj SE (conj MO NN))) as (a & B & GR & LW & Hn & HB1 & HB & FN & I0).
  pose proof (nwloops_nlinv a n adj w rnd GR LW lr true positive B HB1 HB FN p _ q Hn I0 H) as I.
  eapply wp_mono; [apply (nlinv_next a n adj w rnd GR LW lr true positive B HB1 HB FN st q T en l I F)|].
  intros r X e. destruct (nw_lists rnd p n adj w MK HE LV SE MO NN p e T lr (nu_start _ _ _ _ _)) as (en0 & q0 & en1 & L & E1 & D1 & S1 & C1).
  exists en0, q0, en1, L. split; auto. split; auto. destruct r as [[q' en'] [c|x]]; cbn [snd].
  - destruct X as ((W & mcs & m & cu & fin & -> & LG) & _). destruct (nlg_stack _ _ _ _ _ _ _ _ _ _ _ LG) as (c1 & S & _).
    destruct (nslot_prefix a n adj w rnd GR LW lr true B HB1 FN p W _ _ T en' (l ++ [c]) L MK eq_refl S C1 S1) as (rest & ->).
    exists rest. rewrite <- app_assoc. reflexivity.
  - destruct X as (-> & _ & C). split; auto. destruct I as (W & mcs & m & cu & fin & -> & LG). destruct (nlg_stack _ _ _ _ _ _ _ _ _ _ _ LG) as (c1 & S & _).
    destruct (nslot_prefix a n adj w rnd GR LW lr true B HB1 FN p W _ _ T en l L MK eq_refl S C1 S1) as ([|d rest] & EL); [rewrite EL, app_nil_r; auto|].
    exfalso. assert (ID : In d L) by (rewrite EL; apply in_app_iff; right; left; auto). apply C1 in ID. destruct ID as (v & NV & M).
    pose proof (C eq_refl d v M NV) as IL.
    assert (ND : NoDup L).
    { clear - S1 MK. induction S1 as [|x L S IH FA]; constructor; auto. intros IX. rewrite Forall_forall in FA.
      pose proof (FA x IX). apply (nw_listed_asym rnd p n adj w T x x MK); auto. }
    rewrite EL in ND. apply NoDup_remove_2 in ND. apply ND. apply in_app_iff. auto.
Qed.
End Rounding.
