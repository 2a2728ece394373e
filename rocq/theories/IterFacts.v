(** IterFacts: proofs about iterators of graphs that are built again (C77). *)
From Verif Require Import Base MBits MUtils MGraph MStack MRec MHeur MEnum MApi MExt MIter Spec SpecKeep SpecState SpecIter BaseFacts KeepFacts KeepProps StateFacts.
Local Open Scope nat_scope.

Definition sized (p : pygraph) : Prop := exists g, p_G p = Some g /\ n_vert g = p_nvert p + 1.

Lemma construct_nv n cap edges : ifok (construct n cap edges) (fun g => n_vert g = n + 1).
Proof.
  unfold construct. apply ifok_skip. intros a. apply ifok_skip. intros [[[[vs bits] els] ebs] maxd]. apply ifok_skip. intros [[vs' lim] loc].
  apply ifok_ok. unfold ensure_space. destruct (_ <? _)%Z; reflexivity.
Qed.

Lemma builder_sized b p q : builder b -> b p = Ok (Ret q) -> sized q.
Proof.
  assert (X : forall n rows q, (x <- load_rows p n rows;; Ok (Ret x)) = Ok (Ret q) -> sized q).
  { clear q. intros n rows q. unfold load_rows, load_graph. pose proof (construct_nv n (push_cap (2 * length rows) (n + 1) (n + 1)) (self_loops n ++ flat_map (fun '(u, v) => both_ways u v) rows)) as C.
    destruct (construct n _ _) as [g| |]; cbn [bind]; try discriminate. intros E. injection E as <-. exists g. split; [reflexivity|]. exact C. }
  destruct 1.
  - unfold build_edges_metric_only_r. destruct (fill_dists _ _ _ _) as [s1| |]; cbn [bind]; try discriminate.
    destruct (fill_dists _ _ (m_n S2) _) as [s2| |]; cbn [bind]; try discriminate.
    destruct (edges_from_relsets_r _ _ _ _) as [[rows|x]| |]; cbn [bind]; try discriminate. apply X.
  - unfold build_edges_r. destruct (fill_dists _ _ _ _) as [s1| |]; cbn [bind]; try discriminate.
    destruct (fill_dists _ _ (m_n S2) _) as [s2| |]; cbn [bind]; try discriminate.
    destruct (efr_condition_r _ _ _ _ _) as [[rows|x]| |]; cbn [bind]; try discriminate. apply X.
  - unfold build_edges_condition_only. destruct (condition_rows _ _ _) as [rows| |]; cbn [bind]; try discriminate. apply X.
  - unfold build_edges_for_iso. destruct (_ || _); [discriminate|]. destruct (p_G s1), (p_G s2); try discriminate.
    destruct (iso_rows _ _) as [rows| |]; cbn [bind]; try discriminate. apply X.
Qed.

Lemma pskel_sized p q : sized p -> pskel q = pskel p -> sized q /\ p_nvert q = p_nvert p.
Proof.
  intros (g & E & N) C. unfold pskel in C. rewrite E in C. destruct (p_G q) as [g'|] eqn:E'; [|discriminate].
  cbn in C. assert (S : skel g' = skel g) by congruence. assert (NQ : p_nvert q = p_nvert p) by congruence.
  split; auto. exists g'. split; auto. rewrite (skel_nv _ _ S). lia.
Qed.

Lemma build_again_inv b w w' : builder b -> build_again b w = Ok (Ret w') -> sized (w_p w') /\ w_gen w' = S (w_gen w).
Proof.
  unfold build_again. intros B. destruct (b (w_p w)) as [[p|x]| |] eqn:E; cbn [bind]; try discriminate. intros Q. injection Q as <-.
  split; [eapply builder_sized; eauto|reflexivity].
Qed.

Lemma world_sized w : world_ok w -> sized (w_p w).
Proof.
  induction 1 as [b w w' B E|w q W IH C].
  - eapply build_again_inv; eauto.
  - cbn. apply calls_keep in C. eapply pskel_sized; eauto.
Qed.

Lemma later_sized w w' : sized (w_p w) -> later w w' -> sized (w_p w') /\ w_gen w <= w_gen w' /\ (w_gen w' = w_gen w -> pskel (w_p w') = pskel (w_p w)).
Proof.
  intros S. induction 1 as [|w' q L IH C|b w' w'' L IH B E].
  - auto.
  - destruct IH as (S' & G & P). apply calls_keep in C. cbn [w_p w_gen]. destruct (pskel_sized _ _ S' C). split; auto. split; auto. intros Q. rewrite C. auto.
  - destruct IH as (S' & G & P). destruct (build_again_inv _ _ _ B E) as (S2 & ->). split; auto. split; lia.
Qed.

(** Where process_graph stops: a found clique leaves its root and a stack behind. *)
Definition en_stop (g0 : graph) (k : nat) (r : graph * enum * nat) : Prop :=
  snd r = e_cur (snd (fst r)) /\ (snd r < n_vert g0 -> e_states (snd (fst r)) <> []).

Lemma en_turn_stop lr g0 k s : en_inv g0 k s -> ifok (en_turn lr s) (turn_ok (fun _ => True) (en_stop g0 k)).
Proof.
  destruct s as [g en]. intros [H HS]. unfold en_turn. pose proof (skel_nv _ _ H) as NV. cbn [fst] in NV. destruct (Nat.ltb_spec (e_cur en) (n_vert g)) as [L|L].
  - destruct (e_states en) as [|st rest].
    + apply ifok_skip. intros g1. apply ifok_skip. intros [g2 en2]. exact I.
    + do 2 (apply ifok_skip; intros ?). destruct x0 as [m cl]. apply ifok_skip. intros [[g2 st2] r2]. destruct r2.
      * apply ifok_skip. intros g3. apply ifok_skip. intros m3. exact I.
      * split; [reflexivity|]. intros _. discriminate.
      * exact I.
  - split; [reflexivity|]. cbn. lia.
Qed.

Lemma ifok_both {A} (o : outcome A) (P Q : A -> Prop) : ifok o P -> ifok o Q -> ifok o (fun x => P x /\ Q x).
Proof. destruct o; simpl; auto. Qed.

Lemma en_graph_stop lr g en : 2 <= e_size en -> ifok (en_process_graph lr g en) (en_stop g (e_size en)).
Proof.
  intros K. unfold en_process_graph. destruct (Nat.eqb_spec (e_size en) 0); [lia|]. destruct (Nat.eqb_spec (e_size en) 1); [lia|]. cbn [andb].
  apply (ifok_run2 (en_inv g (e_size en))); [|split; reflexivity]. intros s I.
  eapply ifok_mono; [apply ifok_both; [apply (en_turn_keep lr g (e_size en) s I)|apply (en_turn_stop lr g (e_size en) s I)]|].
  intros [s'|r]; cbn [turn_ok]; tauto.
Qed.

(** A step that yielded a clique of two or more vertices. *)
Lemma yielded lr p en p' en' c : sized p -> 2 <= e_size en -> next_clique lr p en = Ok (p', en', Ret c) ->
  e_states en' <> [] /\ e_cur en' <= p_nvert p /\ e_size en' = e_size en.
Proof.
  intros (g & E & N) K. unfold next_clique. rewrite E. pose proof (en_graph_keep lr g en) as KE. pose proof (en_graph_stop lr g en K) as KS.
  destruct (en_process_graph lr g en) as [[[g' e'] v]| |]; cbn [bind]; try discriminate. cbn [ifok fst snd] in *.
  destruct KE as (_ & K0 & _). destruct KS as (K1 & K2). cbn [fst snd] in *.
  destruct (Nat.ltb_spec (p_nvert p) v) as [L|L]; [discriminate|]. destruct (stored_clique g' v) as [[g2 d]| |]; cbn [bind]; try discriminate.
  intros Q. injection Q as <- <- <-. split; [apply K2; lia|]. split; [lia|exact K0].
Qed.

(** The iterator's step after the graph was built again. *)
Lemma stale lr w it w1 it1 c : world_ok w -> 2 <= e_size (i_en it) -> iter_next lr w it = Ok (w1, it1, Ret c) ->
  forall lr' w2, later w1 w2 -> w_gen w1 < w_gen w2 ->
  if e_cur (i_en it1) <=? p_nvert (w_p w2) then iter_next lr' w2 it1 = UB Dangling
  else iter_next lr' w2 it1 = Ok (w2, it1, Raise EStopIteration).
Proof.
  intros W K E lr' w2 L G. pose proof (world_sized _ W) as S. unfold iter_next in E. destruct S as (g & EG & N). rewrite EG in E.
  destruct (uses_states g (i_en it) && negb (i_gen it =? w_gen w)) eqn:ST; [discriminate|].
  destruct (next_clique lr (w_p w) (i_en it)) as [[[p1 en1] r]| |] eqn:EN; cbn [bind] in E; try discriminate. injection E as <- <- ->.
  cbn [w_gen w_p i_en i_gen] in *.
  destruct (yielded lr _ _ _ _ _ (ex_intro _ g (conj EG N)) K EN) as (NE & CU & SZ).
  pose proof (ifok_use _ _ _ (next_keep lr (w_p w) (i_en it)) EN) as PK. cbn [fst] in PK.
  destruct (pskel_sized _ _ (ex_intro _ g (conj EG N)) PK) as (S1 & NV1).
  destruct (later_sized (mkWorld p1 (w_gen w)) w2 S1 L) as ((g2 & E2 & N2) & _ & _).
  assert (IG : match e_states (i_en it) with [] => w_gen w | _ :: _ => i_gen it end = w_gen w).
  { destruct (e_states (i_en it)) as [|st rest] eqn:ES; auto. unfold uses_states in ST. rewrite ES in ST.
    destruct (Nat.eqb_spec (e_size (i_en it)) 0); [lia|]. destruct (Nat.eqb_spec (e_size (i_en it)) 1); [lia|]. cbn [negb andb] in ST.
    destruct (Nat.ltb_spec (e_cur (i_en it)) (n_vert g)) as [LT|LT].
    - cbn in ST. destruct (Nat.eqb_spec (i_gen it) (w_gen w)); [auto|discriminate].
    - exfalso. unfold next_clique in EN. rewrite EG in EN. rewrite (en_done lr g (i_en it)) in EN; [|exact LT|].
      + cbn [bind] in EN. destruct (Nat.ltb_spec (p_nvert (w_p w)) (e_cur (i_en it))); [discriminate|lia].
      + intros Z. apply Nat.eqb_eq in Z. lia. }
  rewrite IG. unfold iter_next. rewrite E2. cbn [i_en i_gen].
  assert (US : uses_states g2 en1 = (e_cur en1 <? n_vert g2)).
  { unfold uses_states. destruct (e_states en1); [congruence|]. rewrite SZ. destruct (Nat.eqb_spec (e_size (i_en it)) 0); [lia|].
    destruct (Nat.eqb_spec (e_size (i_en it)) 1); [lia|]. cbn [negb]. rewrite !Bool.andb_true_r. reflexivity. }
  rewrite US. destruct (Nat.eqb_spec (w_gen w) (w_gen w2)); [lia|]. cbn [negb]. rewrite Bool.andb_true_r.
  destruct (Nat.leb_spec (e_cur en1) (p_nvert (w_p w2))) as [LE|LE].
  - destruct (Nat.ltb_spec (e_cur en1) (n_vert g2)); [reflexivity|lia].
  - destruct (Nat.ltb_spec (e_cur en1) (n_vert g2)); [lia|]. unfold next_clique. rewrite E2. rewrite (en_done lr' g2 en1); [|lia|].
    + cbn [bind]. destruct (Nat.ltb_spec (p_nvert (w_p w2)) (e_cur en1)); [|lia]. cbn [bind].
      destruct (e_states en1); [congruence|]. destruct w2 as [p2 gen2], p2. cbn in *. subst. reflexivity.
    + intros Z. apply Nat.eqb_eq in Z. lia.
Qed.

(** Built again with at least as many vertices. *)
Lemma stale_undefined lr w it w1 it1 c : world_ok w -> 2 <= e_size (i_en it) -> iter_next lr w it = Ok (w1, it1, Ret c) ->
  forall lr' w2, later w1 w2 -> w_gen w1 < w_gen w2 -> p_nvert (w_p w1) <= p_nvert (w_p w2) -> iter_next lr' w2 it1 = UB Dangling.
Proof.
  intros W K E lr' w2 L G NV. pose proof (stale lr w it w1 it1 c W K E lr' w2 L G) as ST.
  assert (CU : e_cur (i_en it1) <= p_nvert (w_p w1)).
  { pose proof (world_sized _ W) as S. unfold iter_next in E. pose proof S as (g & EG & N). rewrite EG in E.
    destruct (uses_states g (i_en it) && negb (i_gen it =? w_gen w)); [discriminate|].
    destruct (next_clique lr (w_p w) (i_en it)) as [[[p1 en1] r]| |] eqn:EN; cbn [bind] in E; try discriminate. injection E as <- <- ->.
    destruct (yielded lr _ _ _ _ _ S K EN) as (_ & CU & _).
    pose proof (ifok_use _ _ _ (next_keep lr (w_p w) (i_en it)) EN) as PK. destruct (pskel_sized _ _ S PK) as (_ & NV1). cbn in *. lia. }
  destruct (Nat.leb_spec (e_cur (i_en it1)) (p_nvert (w_p w2))); [exact ST|lia].
Qed.

(** A finished iterator stays so unless the graph has become larger. *)
Lemma finished_stays lr w it w1 it1 : world_ok w -> iter_next lr w it = Ok (w1, it1, Raise EStopIteration) ->
  forall lr' w2, later w1 w2 -> p_nvert (w_p w2) <= p_nvert (w_p w1) ->
  exists it2, iter_next lr' w2 it1 = Ok (w2, it2, Raise EStopIteration).
Proof.
  intros W E lr' w2 L NV. pose proof (world_sized _ W) as S. unfold iter_next in E. pose proof S as (g & EG & N). rewrite EG in E.
  destruct (uses_states g (i_en it) && negb (i_gen it =? w_gen w)); [discriminate|].
  destruct (next_clique lr (w_p w) (i_en it)) as [[[p1 en1] r]| |] eqn:EN; cbn [bind] in E; try discriminate. injection E as <- <- ->.
  pose proof (ifok_use _ _ _ (next_keep lr (w_p w) (i_en it)) EN) as PK. cbn [fst] in PK. destruct (pskel_sized _ _ S PK) as (S1 & NV1).
  cbn [w_p i_en i_gen] in *. destruct (later_sized (mkWorld p1 (w_gen w)) w2 S1 L) as ((g2 & E2 & N2) & _ & _).
  assert (CU : p_nvert (w_p w) < e_cur en1).
  { unfold next_clique in EN. rewrite EG in EN. pose proof (en_graph_keep lr g (i_en it)) as KE.
    destruct (en_process_graph lr g (i_en it)) as [[[g' e'] v]| |]; cbn [bind] in EN; try discriminate. cbn [ifok] in KE. destruct KE as (_ & _ & KE).
    cbn [fst snd] in KE. destruct (Nat.ltb_spec (p_nvert (w_p w)) v) as [LT|LT].
    - injection EN as <- <-. destruct KE as [KE|[-> KE]]; lia.
    - destruct (stored_clique g' v) as [[g3 d]| |]; cbn [bind] in EN; discriminate. }
  unfold iter_next. rewrite E2. cbn [i_en i_gen].
  assert (US : uses_states g2 en1 = false).
  { unfold uses_states. destruct (e_states en1); auto. destruct (Nat.ltb_spec (e_cur en1) (n_vert g2)); [lia|reflexivity]. }
  rewrite US. cbn [andb]. unfold next_clique. rewrite E2. destruct (e_size en1 =? 0) eqn:Z.
  - unfold en_process_graph. rewrite Z. cbn [bind]. destruct (Nat.ltb_spec (p_nvert (w_p w2)) (n_vert g2)); [|lia]. cbn [bind].
    destruct w2 as [p2 gen2], p2. cbn in *. subst. eexists. reflexivity.
  - rewrite (en_done lr' g2 en1) by (try lia; rewrite Z; discriminate). cbn [bind]. destruct (Nat.ltb_spec (p_nvert (w_p w2)) (e_cur en1)); [|lia]. cbn [bind].
    destruct w2 as [p2 gen2], p2. cbn in *. subst. eexists. reflexivity.
Qed.

(** An iterator that has not started, or whose graph is still there, does what the enumerator does. *)
Definition fresh_states (w : world) (it : iter) : Prop := e_states (i_en it) = [] \/ i_gen it = w_gen w.

Lemma next_fresh lr w it : fresh_states w it -> sized (w_p w) ->
  iter_next lr w it = ('(p, en, r) <- next_clique lr (w_p w) (i_en it);; Ok (mkWorld p (w_gen w), mkIter en (w_gen w), r)).
Proof.
  intros F (g & E & N). unfold iter_next. rewrite E.
  assert (X : uses_states g (i_en it) && negb (i_gen it =? w_gen w) = false /\ match e_states (i_en it) with [] => w_gen w | _ :: _ => i_gen it end = w_gen w).
  { destruct F as [F|F].
    - unfold uses_states. rewrite F. auto.
    - rewrite F, Nat.eqb_refl. cbn [negb]. rewrite Bool.andb_false_r. destruct (e_states (i_en it)); auto. }
  destruct X as [-> ->]. destruct (next_clique lr (w_p w) (i_en it)) as [[[p en] r]| |]; reflexivity.
Qed.

Lemma drain_fresh lr : forall fuel w it, fresh_states w it -> sized (w_p w) ->
  iter_drain fuel lr w it = ('(p, en, l) <- drain fuel lr (w_p w) (i_en it);; Ok (mkWorld p (w_gen w), mkIter en (w_gen w), l)).
Proof.
  induction fuel as [|f IH]; intros w it F S; [reflexivity|]. cbn [iter_drain drain]. rewrite (next_fresh lr w it F S).
  pose proof (next_keep lr (w_p w) (i_en it)) as PK.
  destruct (next_clique lr (w_p w) (i_en it)) as [[[p en] r]| |]; cbn [bind]; auto. cbn [ifok fst] in PK. destruct r as [c|x]; cbn [bind]; auto.
  rewrite IH; [|right; reflexivity|eapply pskel_sized; eauto]. cbn [w_p w_gen i_en].
  destruct (drain f lr p en) as [[[p2 en2] l]| |]; reflexivity.
Qed.

(** Created before the graph is built again, used after. *)
Lemma unused_iterator w w2 k : world_ok w -> later w w2 -> forall fuel lr q en l,
  drain fuel lr (w_p w2) (new_enum k) = Ok (q, en, l) -> iter_drain fuel lr w2 (new_iter w k) = Ok (mkWorld q (w_gen w2), mkIter en (w_gen w2), l).
Proof.
  intros W L fuel lr q en l D. destruct (later_sized _ _ (world_sized _ W) L) as (S & _).
  rewrite drain_fresh; [|left; reflexivity|exact S]. cbn [i_en new_iter]. rewrite D. reflexivity.
Qed.
