(** StateFacts: current_vertex and finished_all (search_done). *)
From Verif Require Import Base MUtils MGraph MEnum MApi MExt Spec SpecKeep SpecState BaseFacts LoadFacts ConstructFacts CliqueFacts ApiFacts KeepFacts KeepProps.
Local Open Scope nat_scope.

(** finished_all says whether current_vertex has reached the number of vertices. *)
Definition agrees (n : nat) (p : pygraph) : Prop := p_G p <> None /\ p_nvert p = n /\ p_done p = (n <=? p_cur p).

Lemma get_agrees n e p lb ub heur dfs cont : 1 <= n -> agrees n p -> ifok (get_max_clique e p lb ub heur dfs cont) (fun r => agrees n (fst r)).
Proof.
  intros Hn (A1 & A2 & A3). unfold get_max_clique, loaded. destruct (p_G p) as [g|]; [|congruence].
  destruct (Nat.eqb_spec (p_nvert p) 0) as [E|_]; [lia|]. apply ifok_skip. intros [g1 c]. apply ifok_skip. intros [g2 ans].
  destruct (length ans <? lb); apply ifok_ok; cbn [fst]; (split; [discriminate|]); (split; [exact A2|]); cbn; rewrite A2; reflexivity.
Qed.

Lemma next_agrees n lr p en : agrees n p -> ifok (next_clique lr p en) (fun r => agrees n (fst (fst r))).
Proof.
  intros (A1 & A2 & A3). unfold next_clique. destruct (p_G p) as [g|]; [|exact I]. apply ifok_skip. intros [[g1 en1] v].
  destruct (p_nvert p <? v); [apply ifok_ok; split; [discriminate|split; auto]|].
  apply ifok_skip. intros [g2 c]. apply ifok_ok. split; [discriminate|split; auto].
Qed.

Lemma calls_agrees n p q : 1 <= n -> agrees n p -> calls p q -> agrees n q.
Proof.
  intros Hn A. induction 1 as [|q e lb ub heur dfs cont q' r H IH E|q e len2 lb ub heur dfs cont q' r H IH E|q q' H IH E|q lr en q' en' r H IH E|q lr len2 en q' en' r H IH E]; auto.
  - apply (ifok_use _ _ _ (get_agrees n e q lb ub heur dfs cont Hn IH) E).
  - unfold get_correspondence in E. pose proof (get_agrees n e q lb ub heur dfs cont Hn IH) as G.
    destruct (get_max_clique e q lb ub heur dfs cont) as [[q1 [c|x]]| |]; cbn [bind] in E; try discriminate.
    + destruct (correspondence2 len2 c); cbn [bind] in E; try discriminate. injection E as <- _. exact G.
    + injection E as <- _. exact G.
  - destruct IH as (A1 & A2 & A3). unfold reset_search in E. destruct (p_G q); [|discriminate]. injection E as <-.
    split; [discriminate|]. split; auto. cbn. destruct (Nat.leb_spec n 0); [lia|auto].
  - apply (ifok_use _ _ _ (next_agrees n lr q en IH) E).
  - unfold next_correspondence in E. pose proof (next_agrees n lr q en IH) as G.
    destruct (next_clique lr q en) as [[[q1 en1] [c|x]]| |]; cbn [bind] in E; try discriminate.
    + destruct (correspondence2 len2 c); cbn [bind] in E; try discriminate. injection E as <- _ _. exact G.
    + injection E as <- _ _. exact G.
Qed.

Lemma repr_negated p n adj q : made p n adj -> 1 <= n -> calls p q -> repr_search_done q = negb (p_done q).
Proof.
  intros M Hn H. destruct (made_fresh p n adj M) as (a & cap & m & g & -> & _).
  assert (A : agrees n (mkP (Some g) n m 0 false)).
  { split; [discriminate|]. split; auto. cbn. destruct (Nat.leb_spec n 0); [lia|auto]. }
  destruct (calls_agrees n _ q Hn A H) as (_ & A2 & A3). unfold repr_search_done. rewrite A2, A3, Nat.ltb_antisym. reflexivity.
Qed.

(** ** Building again *)
Lemma load_rows_same p n rows q : load_rows p n rows = Ok q -> exists q0, load_rows new_pygraph n rows = Ok q0
  /\ p_G q = p_G q0 /\ p_G q <> None /\ p_nvert q = p_nvert q0 /\ p_nedges q = p_nedges q0 /\ p_cur q = p_cur p /\ p_done q = p_done p.
Proof.
  unfold load_rows, load_graph. destruct (construct n _ _) as [g| |]; cbn [bind]; try discriminate. intros E. injection E as <-.
  eexists. split; [reflexivity|]. cbn. repeat split; auto. discriminate.
Qed.

Lemma builder_same b p q : builder b -> b p = Ok (Ret q) -> exists q0, b new_pygraph = Ok (Ret q0)
  /\ p_G q = p_G q0 /\ p_G q <> None /\ p_nvert q = p_nvert q0 /\ p_nedges q = p_nedges q0 /\ p_cur q = p_cur p /\ p_done q = p_done p.
Proof.
  assert (X : forall n rows q, (x <- load_rows p n rows;; Ok (Ret x)) = Ok (Ret q) -> exists q0,
    (x <- load_rows new_pygraph n rows;; Ok (Ret x)) = Ok (@Ret pygraph q0)
    /\ p_G q = p_G q0 /\ p_G q <> None /\ p_nvert q = p_nvert q0 /\ p_nedges q = p_nedges q0 /\ p_cur q = p_cur p /\ p_done q = p_done p).
  { clear q. intros n rows q E. destruct (load_rows p n rows) as [q1| |] eqn:E1; cbn [bind] in E; try discriminate. injection E as ->.
    destruct (load_rows_same p n rows q E1) as (q0 & -> & Y). exists q0. split; [reflexivity|]. exact Y. }
  destruct 1.
  - unfold build_edges_metric_only_r. destruct (fill_dists _ _ _ _) as [s1| |]; cbn [bind]; try discriminate.
    destruct (fill_dists _ _ (m_n S2) _) as [s2| |]; cbn [bind]; try discriminate.
    destruct (edges_from_relsets_r _ _ _ _) as [[rows|x]| |]; cbn [bind]; try discriminate. apply X.
  - unfold build_edges_r. destruct (fill_dists _ _ _ _) as [s1| |]; cbn [bind]; try discriminate.
    destruct (fill_dists _ _ (m_n S2) _) as [s2| |]; cbn [bind]; try discriminate.
    destruct (efr_condition_r _ _ _ _ _) as [[rows|x]| |]; cbn [bind]; try discriminate. apply X.
  - unfold build_edges_condition_only. destruct (condition_rows _ _ _) as [rows| |]; cbn [bind]; try discriminate. apply X.
  - unfold build_edges_for_iso. destruct (_ || _); [discriminate|]. destruct (p_G s1), (p_G s2); try discriminate.
    destruct (iso_rows _ _) as [rows| |]; cbn [bind]; try discriminate. apply X.
Qed.

Lemma rebuilt b p q : builder b -> b p = Ok (Ret q) -> exists q0, b new_pygraph = Ok (Ret q0) /\ same_exports q q0
  /\ p_nvert q = p_nvert q0 /\ p_nedges q = p_nedges q0
  /\ (p_nvert q <> 0 -> forall e lb ub heur dfs, get_max_clique e q lb ub heur dfs false = get_max_clique e q0 lb ub heur dfs false)
  /\ (exists q1, reset_search q = Ok q1 /\ reset_search q0 = Ok q1)
  /\ p_cur q = p_cur p /\ p_done q = p_done p.
Proof.
  intros B E. destruct (builder_same b p q B E) as (q0 & E0 & G & GN & NV & NE & C & D). exists q0. split; auto.
  split; [apply exports_keep; unfold pskel; rewrite G, NV, NE; reflexivity|]. split; auto. split; auto.
  split; [|split; [|auto]].
  - intros Z e lb ub heur dfs. unfold get_max_clique, loaded. rewrite G, NV, NE in *. destruct (p_G q0) as [g|]; [|congruence].
    destruct (Nat.eqb_spec (p_nvert q0) 0); [congruence|]. reflexivity.
  - unfold reset_search. rewrite <- G, <- NV, <- NE. destruct (p_G q) as [g|]; [|congruence]. eauto.
Qed.
