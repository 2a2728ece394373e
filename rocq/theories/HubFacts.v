(** HubFacts: graphs whose construction reallocates the bitset storage, and what searching them does (C13). *)
From Verif Require Import Base MBits MUtils MGraph MHeur MApi MNW MNWEnum MNWApi Spec SpecNW SpecBits SpecKeep BaseFacts BitsFacts SetFacts SortFacts RowFacts ConstructFacts CardFacts LoadFacts ExportFacts LoadProps SearchBase StackFacts SearchFacts CliqueFacts LiveFacts KeepFacts KeepProps NWProps.
From Coq Require Import Sorting.Sorted.
Local Open Scope nat_scope.

(** ** No search of such a graph returns. *)
Lemma dead_stored g i r : bits_live g = false -> stored_clique g i <> Ok r.
Proof. intros L. unfold stored_clique, live. destruct (rd (vertices g) i); cbn [bind]; try discriminate. rewrite L. discriminate. Qed.

Lemma dead_get e p lb ub heur dfs cont g r : p_G p = Some g -> 1 <= p_nvert p -> bits_live g = false ->
  get_max_clique e p lb ub heur dfs cont <> Ok r.
Proof.
  intros G N L. unfold get_max_clique, loaded. rewrite G. destruct (Nat.eqb_spec (p_nvert p) 0) as [|_]; [lia|].
  match goal with |- context [find_max_cliques ?e ?g' ?c ?h ?d] => pose proof (find_keep e g' c h d) as K; destruct (find_max_cliques e g' c h d) as [(g2, c2)| |] end; cbn [bind]; try discriminate.
  cbn [ifok fst] in K. assert (L2 : bits_live g2 = false) by (unfold skel in K; cbn in K; congruence).
  pose proof (fun r => dead_stored g2 (CUR_MAX_LOC g2) r L2) as D. destruct (stored_clique g2 (CUR_MAX_LOC g2)) as [x| |]; cbn [bind]; try discriminate.
  exfalso. apply (D x). reflexivity.
Qed.

(** Not even after other calls. *)
Lemma dead_search p n adj : made p n adj -> 1 <= n -> ~ storage_live p -> forall q, calls p q -> forall e lb ub heur dfs cont r,
  get_max_clique e q lb ub heur dfs cont <> Ok r.
Proof.
  intros M N D q C e lb ub heur dfs cont r. destruct (made_fresh _ _ _ M) as (a & cap & m & g & -> & G & B).
  apply calls_keep in C. unfold pskel in C. destruct (p_G q) as [h|] eqn:E; [|discriminate]. cbn [p_G p_nvert p_nedges option_map] in C. injection C as C1 C2 C3.
  apply (dead_get e q lb ub heur dfs cont h); [exact E|lia|].
  destruct (bits_live h) eqn:L; auto. exfalso. apply D. exists g. split; auto.
Qed.

Lemma dead_nget rnd e p lb ub heur dfs W r : q_G p = Some W -> 1 <= q_nvert p -> bits_live (w_g W) = false ->
  nw_get_max_clique rnd e p lb ub heur dfs <> Ok r.
Proof.
  intros G N L. unfold nw_get_max_clique, nw_loaded. cbn [q_G q_nvert]. rewrite G. destruct (Nat.eqb_spec (q_nvert p) 0) as [|_]; [lia|].
  match goal with |- context [nw_find_max_cliques _ ?e ?g' ?c ?h ?d] => pose proof (nw_find_keep rnd e g' c h d) as K; destruct (nw_find_max_cliques rnd e g' c h d) as [(W2, c2)| |] end; cbn [bind]; try discriminate.
  cbn [ifok fst] in K. apply wskel_skel in K. assert (L2 : bits_live (w_g W2) = false) by (unfold skel in K; cbn in K; congruence).
  unfold nw_stored. pose proof (fun r => dead_stored (w_g W2) (w_loc W2) r L2) as D. destruct (stored_clique (w_g W2) (w_loc W2)) as [x| |]; cbn [bind]; try discriminate.
  exfalso. apply (D x). reflexivity.
Qed.

Lemma dead_nsearch rnd p n adj w : nmade rnd p n adj w -> 1 <= n -> ~ nstorage_live p -> forall q, ncalls rnd p q -> forall e lb ub heur dfs r,
  nw_get_max_clique rnd e q lb ub heur dfs <> Ok r.
Proof.
  intros M N D q C e lb ub heur dfs r. destruct (nmade_made _ _ _ _ _ M) as [_ MD]. destruct (made_sized _ _ _ MD) as (g & E & SZ). apply ncalls_keep in C.
  unfold nw_as_pygraph in E, SZ. cbn [p_G p_nvert] in *. unfold qskel in C. destruct (q_G p) as [W0|] eqn:E0; [|discriminate].
  destruct (q_G q) as [W|] eqn:EQ; [|discriminate]. 
  assert (X : Some (wskel W) = Some (wskel W0)) by exact (f_equal (fun x => fst (fst x)) C).
  assert (C2 : q_nvert q = q_nvert p) by exact (f_equal (fun x => snd (fst x)) C).
  assert (NV : q_nvert p = n) by (pose proof (made_nvert _ _ _ MD) as Y; exact Y).
  apply (dead_nget rnd e q lb ub heur dfs W); [exact EQ|lia|].
  destruct (bits_live (w_g W)) eqn:L; auto. exfalso. apply D. unfold nstorage_live, storage_live, nw_as_pygraph. cbn [p_G]. rewrite E0. cbn [option_map]. eexists. split; [reflexivity|].
  assert (X' : wskel W = wskel W0) by congruence. apply wskel_skel in X'. unfold skel in X'. congruence.
Qed.

(** ** A large clique and a vertex of large degree *)
Lemma push_cap_le k : forall cap size, size <= cap -> 1 <= cap -> push_cap k cap size <= Nat.max cap (2 * (size + k)).
Proof.
  induction k as [|k IH]; intros cap size H1 H2; cbn [push_cap]; [lia|]. destruct (Nat.ltb_spec size cap) as [L|L].
  - etransitivity; [apply IH; lia|]. lia.
  - destruct (Nat.eqb_spec cap 0); [lia|]. etransitivity; [apply IH; lia|]. lia.
Qed.

Lemma hub_dangles rows n p c v nb : fits (n + 1 + 2 * length rows) -> from_edgelist rows n = Ok (Ret p) ->
  clique n (adj_rows rows) c -> NoDup nb -> (forall u, In u nb -> adj_rows rows v u) ->
  64 * (n + 1 + 2 * length rows) <= (length c + 1) * length nb -> ~ storage_live p.
Proof.
  intros HF E C ND NB SZ (g & G & L). pose proof (from_edgelist_spec rows n HF) as H. pose proof (read_rows_spec n rows) as R.
  destruct (read_rows n rows) as [l|e]; [|destruct H as (_ & H); congruence].
  destruct R as (RO & RL & _). destruct H as (_ & a & GR & A & H). rewrite E in H. cbn [wp ends_with] in H. destruct H as (p' & P' & (g' & -> & _ & B)). injection P' as ->.
  cbn [p_G] in G. injection G as <-.
  assert (LA : length a <= n + 1 + 2 * length rows).
  { replace (n + 1 + 2 * length rows) with (length (self_loops n ++ l)) by (unfold self_loops; rewrite app_length, map_length, seq_length; lia).
    apply NoDup_incl_length; [|intros x; apply A]. apply sorted_lt_nodup, (gr_sorted _ _ _ GR). }
  assert (LV : length nb <= length (row a v)).
  { apply NoDup_incl_length; auto. intros u I. apply row_in. apply (gr_in _ _ _ GR). pose proof (NB u I) as AD.
    destruct (gr_simple _ _ _ GR _ _ AD) as (X & Y & Z). destruct (gr_simple _ _ _ GR _ _ X) as (_ & _ & X'). split; [lia|]. split; [lia|auto]. }
  destruct nb as [|u nb]; [cbn [length] in SZ; lia|].
  assert (AD : adj_rows rows v u) by (apply NB; left; auto). destruct (gr_simple _ _ _ GR _ _ AD) as (AD' & NE & VN).
  assert (LV2 : 2 <= length (row a v)).
  { change 2 with (length [v; u]). apply NoDup_incl_length; [constructor; [intros [X|[]]; auto|constructor; [intros []|constructor]]|].
    destruct (gr_simple _ _ _ GR _ _ AD') as (_ & _ & UN). intros x [<-|[<-|[]]]; apply row_in, (gr_in _ _ _ GR); repeat split; auto; lia. }
  assert (CL : length c <= CLIQUE_LIMIT g').
  { destruct c as [|x c]; [cbn; lia|]. destruct (clique_rooted a n _ GR (x :: c) C) as (r & K & RN & _ & RT & _ & EC & _); [discriminate|].
    rewrite <- EC. etransitivity; [eapply (rooted_bound a n); eauto; lia|]. apply (b_lim _ _ _ _ B). lia. }
  assert (MD : length (u :: nb) <= max_degree g') by (etransitivity; [exact LV|]; apply (b_deg _ _ _ _ B); lia).
  pose proof (words_bounds (max_degree g')) as W. set (w := words (max_degree g')) in *. set (d := length (u :: nb)) in *.
  assert (BIG : (length c + 1) * d <= 64 * ((CLIQUE_LIMIT g' + 1) * w)) by nia.
  pose proof (push_cap_le (length l) (n + 1) (n + 1) ltac:(lia) ltac:(lia)) as PC.
  destruct (b_live_inv _ _ _ _ B) as [X|X]; auto; [exists v; split; auto; lia| |]; lia.
Qed.

(** ** For instance: a clique of c vertices, one of which has c * c further neighbours *)
Definition clique_rows (c : nat) : list (nat * nat) := flat_map (fun i => map (fun j => (i, j)) (seq (i + 1) (c - i))) (seq 1 c).
Definition hub_rows (c : nat) : list (nat * nat) := clique_rows c ++ map (fun j => (1, j)) (seq (c + 1) (c * c)).

Lemma clique_rows_in c u v : In (u, v) (clique_rows c) <-> 1 <= u /\ u < v /\ v <= c.
Proof.
  unfold clique_rows. rewrite in_flat_map. split.
  - intros (i & I & J). apply in_map_iff in J. destruct J as (j & X & J). injection X as -> ->. apply in_seq in I, J. lia.
  - intros (H1 & H2 & H3). exists u. split; [apply in_seq; lia|]. apply in_map_iff. exists v. split; auto. apply in_seq. lia.
Qed.

Lemma clique_rows_len c : length (clique_rows c) <= c * c.
Proof.
  unfold clique_rows. enough (X : forall l, length (flat_map (fun i => map (fun j => (i, j)) (seq (i + 1) (c - i))) l) <= length l * c).
  { specialize (X (seq 1 c)). rewrite seq_length in X. exact X. }
  induction l as [|x l IH]; [cbn; lia|]. cbn [flat_map]. rewrite app_length, map_length, seq_length. cbn [length]. lia.
Qed.

Lemma hub_rows_len c : c * c <= length (hub_rows c) <= 2 * (c * c).
Proof. unfold hub_rows. rewrite app_length, map_length, seq_length. pose proof (clique_rows_len c). lia. Qed.

Lemma hub_rows_ok c : 1 <= c -> rows_ok (c + c * c) (hub_rows c).
Proof.
  intros P u v I. unfold hub_rows in I. apply in_app_iff in I. destruct I as [I|I]; [apply clique_rows_in in I; lia|].
  apply in_map_iff in I. destruct I as (j & X & I). injection X as <- <-. apply in_seq in I. lia.
Qed.

Lemma seq_sorted k : forall i, StronglySorted lt (seq i k).
Proof. induction k as [|k IH]; intros i; cbn [seq]; constructor; auto. apply Forall_forall. intros x I. apply in_seq in I. lia. Qed.

Lemma hub_graph_dangles c : 512 <= c -> fits (10 * (c * c)) -> exists p, from_edgelist (hub_rows c) (c + c * c) = Ok (Ret p)
  /\ c * c <= length (hub_rows c) /\ ~ storage_live p.
Proof.
  intros H HF. pose proof (hub_rows_len c) as HL.
  assert (F : fits (c + c * c + 1 + 2 * length (hub_rows c))) by (unfold fits in *; nia).
  pose proof (edgelist_accepts (hub_rows c) (c + c * c) F) as A.
  destruct (from_edgelist (hub_rows c) (c + c * c)) as [r| |] eqn:E; cbn in A; try contradiction.
  destruct A as [(_ & p & ->)|(N & _)]; [|exfalso; apply N, hub_rows_ok; lia].
  exists p. split; auto. split; [lia|].
  apply (hub_dangles (hub_rows c) (c + c * c) p (seq 1 c) 1 (seq (c + 1) (c * c)) F E).
  - split; [apply seq_sorted|]. split; [intros v I; apply in_seq in I; lia|]. intros u v I J N. apply in_seq in I, J. split; auto.
    unfold hub_rows. rewrite !in_app_iff, !clique_rows_in. lia.
  - apply seq_NoDup.
  - intros u I. apply in_seq in I. split; [lia|]. left. unfold hub_rows. apply in_app_iff. right. apply in_map_iff. exists u. split; auto. apply in_seq. lia.
  - rewrite !seq_length. nia.
Qed.

Lemma large_dangles c : 512 <= c -> fits (10 * (c * c)) -> exists rows n p, c * c <= length rows
  /\ from_edgelist rows n = Ok (Ret p) /\ ~ storage_live p.
Proof. intros H HF. destruct (hub_graph_dangles c H HF) as (p & E & L & D). eauto 7. Qed.

Lemma nmade_live rnd p n adj w l D : nmade rnd p n adj w ->
  (forall v, v <= n -> ends_with (vertex_neighbors (nw_as_pygraph p) v) (fun r => exists nb, r = Ret nb /\ length nb <= D)) ->
  (forall u v, In (u, v) l -> u < v /\ adj u v) -> NoDup l -> 5 <= length l -> (64 <= D -> (D + 64) * (D + 64) <= 1024 * length l) ->
  nstorage_live p.
Proof. intros M. destruct (nmade_made _ _ _ _ _ M) as [_ MD]. apply (made_live _ _ _ l D MD). Qed.
