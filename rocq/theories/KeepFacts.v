(** KeepFacts: what no search, reset or enumeration ever changes, on any object in any state. *)
From Verif Require Import Base MBits MUtils MGraph MStack MRec MHeur MEnum MApi MNW MNWEnum MNWApi BaseFacts.
Local Open Scope nat_scope.
Local Arguments Nat.sub : simpl never.
Local Arguments Nat.mul : simpl never.

(** [Q] holds of the result, if there is one. *)
Definition ifok {A} (o : outcome A) (Q : A -> Prop) : Prop := match o with Ok x => Q x | _ => True end.

Lemma ifok_ok {A} (x : A) (Q : A -> Prop) : Q x -> ifok (Ok x) Q.
Proof. auto. Qed.
Lemma ifok_bind {A B} (o : outcome A) (f : A -> outcome B) P Q : ifok o P -> (forall x, P x -> ifok (f x) Q) -> ifok (bind o f) Q.
Proof. destruct o; simpl; auto. Qed.
Lemma ifok_skip {A B} (o : outcome A) (f : A -> outcome B) Q : (forall x, ifok (f x) Q) -> ifok (bind o f) Q.
Proof. destruct o; simpl; auto. Qed.
Lemma ifok_mono {A} (o : outcome A) (P Q : A -> Prop) : ifok o P -> (forall x, P x -> Q x) -> ifok o Q.
Proof. destruct o; simpl; auto. Qed.
Lemma ifok_use {A} (o : outcome A) Q x : ifok o Q -> o = Ok x -> Q x.
Proof. intros H ->. exact H. Qed.

Definition turn_ok {S R} (I : S -> Prop) (Q : R -> Prop) (r : step S R) : Prop := match r with Cont s => I s | Done x => Q x end.

Lemma ifok_loopN {S R} (I : S -> Prop) (Q : R -> Prop) (body : S -> outcome (step S R)) : (forall s, I s -> ifok (body s) (turn_ok I Q)) ->
  forall fuel s, I s -> ifok (loopN fuel body s) Q.
Proof.
  intros H fuel. induction fuel as [|f IH]; intros s Hs; simpl; auto. eapply ifok_bind; [apply H; exact Hs|].
  intros [s'|x]; simpl; auto.
Qed.

Lemma ifok_loop2 {S R} (I : S -> Prop) (Q : R -> Prop) (body : S -> outcome (step S R)) : (forall s, I s -> ifok (body s) (turn_ok I Q)) ->
  forall k s, I s -> ifok (loop2 k body s) (turn_ok I Q).
Proof.
  intros H k. induction k as [|k IH]; intros s Hs; simpl; auto. eapply ifok_bind; [apply IH; exact Hs|].
  intros [s'|x]; simpl; auto.
Qed.

Lemma ifok_run2 {S R} (I : S -> Prop) (Q : R -> Prop) (body : S -> outcome (step S R)) : (forall s, I s -> ifok (body s) (turn_ok I Q)) ->
  forall k s, I s -> ifok (run2 k body s) Q.
Proof. intros H k s Hs. unfold run2. eapply ifok_bind; [apply (ifok_loop2 I Q); eauto|]. intros [s'|x]; simpl; auto. Qed.

Lemma ifok_foldM {X S} (I : S -> Prop) (f : X -> S -> outcome S) : (forall x s, I s -> ifok (f x s) I) ->
  forall l s, I s -> ifok (foldM f l s) I.
Proof. intros H l. induction l as [|x l IH]; intros s Hs; simpl; auto. eapply ifok_bind; [apply H; exact Hs|auto]. Qed.

Lemma ifok_for {S} (I : S -> Prop) (f : nat -> S -> outcome S) lo hi : (forall x s, I s -> ifok (f x s) I) ->
  forall s, I s -> ifok (for_ lo hi f s) I.
Proof. intros H s. apply ifok_foldM. auto. Qed.

(** Everything but the words of edge_bits, the allocator's position, the bounds and the best clique. *)
Definition strip (v : vertex) : vertex := set_mcs v 0.
Definition skel (g : graph) :=
  (edge_list g, map strip (vertices g), n_vert g, (el_size g, eb_size g, search_start g, search_end g, max_degree g, bits_live g)).

Lemma strip_upd (vs : list vertex) i v w : nth_error vs i = Some v -> strip w = strip v -> map strip (upd vs i w) = map strip vs.
Proof.
  revert i. induction vs as [|x vs IH]; intros [|i] E H; try discriminate; cbn in *.
  - injection E as ->. rewrite H. reflexivity.
  - f_equal. eapply IH; eauto.
Qed.

Lemma skel_mem g m : skel (set_mem g m) = skel g.
Proof. reflexivity. Qed.
Lemma skel_cur g m : skel (set_cur g m) = skel g.
Proof. reflexivity. Qed.
Lemma skel_best g s l : skel (set_best g s l) = skel g.
Proof. reflexivity. Qed.
Lemma skel_limit g l : skel (set_limit g l) = skel g.
Proof. reflexivity. Qed.
#[local] Hint Rewrite skel_mem skel_cur skel_best skel_limit : skel.

Ltac ki := repeat match goal with x : (_ * _)%type |- _ => destruct x end; cbn [fst snd turn_ok w_g set_wg set_wmem] in *; autorewrite with skel in *.
Ltac kd := match goal with
  | |- ifok (if ?b then _ else _) _ => destruct b
  | |- ifok (match ?b with Some _ => _ | None => _ end) _ => destruct b
  | |- ifok (match ?b with [] => _ | _ :: _ => _ end) _ => destruct b
  end.
Ltac kskip := apply ifok_skip; intros; ki.
Ltac kok := apply ifok_ok; cbn [fst snd turn_ok w_g set_wg set_wmem]; autorewrite with skel; try congruence.
Tactic Notation "kuse" uconstr(L) := eapply ifok_bind; [apply L|cbn beta; intros; ki].

Lemma load_memory_keep g n : ifok (load_memory g n) (fun r => skel (fst r) = skel g).
Proof. unfold load_memory. kd; [kok|exact I]. Qed.

Lemma clear_memory_keep g n : ifok (clear_memory g n) (fun r => skel r = skel g).
Proof. unfold clear_memory. kd; [exact I|]. kskip. kok. Qed.

Lemma push_state_keep g n st j l : ifok (push_state g n st j l) (fun r => skel (fst r) = skel g).
Proof. unfold push_state. kuse load_memory_keep. do 3 kskip. kok. Qed.

Lemma root_state_keep lr g v : ifok (root_state lr g v) (fun r => skel (fst r) = skel g).
Proof. unfold root_state. kuse load_memory_keep. kuse load_memory_keep. kskip. kok. Qed.

Lemma record_max_keep g cur res s : ifok (record_max g cur res s) (fun r => skel r = skel g).
Proof.
  unfold record_max. destruct (rd (vertices g) cur) as [v| |] eqn:E; simpl; auto. kskip. kskip.
  unfold wr. destruct (cur <? length (vertices g)); simpl; auto. unfold skel, set_best, set_vertices, set_mem. cbn.
  unfold rd in E. destruct (nth_error (vertices g) cur) as [v'|] eqn:E'; [|discriminate]. injection E as ->.
  rewrite (strip_upd _ _ _ (set_mcs v s) E') by reflexivity. reflexivity.
Qed.

Lemma stored_keep g i : ifok (stored_clique g i) (fun r => skel (fst r) = skel g).
Proof. unfold stored_clique. do 3 kskip. kok. Qed.

(** ** StackDFS *)
Lemma sd_inner_keep cur v csz g j st cl : ifok (sd_inner cur v csz g j st cl) (fun r => skel (fst (fst (fst r))) = skel g).
Proof.
  unfold sd_inner. apply (ifok_loopN (fun s => skel (fst (fst (fst s))) = skel g)); [|reflexivity].
  intros [[[g1 j1] st1] cl1] H. ki. kd; [|kok]. do 5 kskip. kd; [|kok]. kd.
  - kskip. kuse record_max_keep. kskip. kok.
  - kuse push_state_keep. kok.
Qed.

Lemma sd_turn_keep g0 cur v s : skel (fst (fst s)) = skel g0 ->
  ifok (sd_turn cur v s) (turn_ok (fun s => skel (fst (fst s)) = skel g0) (fun r => skel (fst r) = skel g0)).
Proof.
  destruct s as [[g states] csz]. intros H. unfold sd_turn. ki. kd; [kok|]. kd; [kok|]. do 2 kskip. kuse sd_inner_keep.
  match goal with |- ifok (let '(_, _) := ?x in _) _ => destruct x end. kd; [|kok]. kuse clear_memory_keep. kskip. kok.
Qed.

Lemma sd_vertex_keep lr g cur : ifok (sd_process_vertex lr g cur) (fun r => skel r = skel g).
Proof.
  unfold sd_process_vertex. kskip. kuse root_state_keep. kskip. kd.
  - eapply ifok_mono; [apply clear_memory_keep|]. cbn beta. intros. ki. congruence.
  - eapply ifok_bind; [apply (ifok_run2 (fun s => skel (fst (fst s)) = skel g) (fun r => skel (fst r) = skel g))|].
    + intros. apply sd_turn_keep. auto.
    + cbn [fst]. autorewrite with skel. auto.
    + intros. ki. eapply (ifok_bind _ _ (fun r => skel r = skel g)).
      * kd; [kok|]. eapply ifok_mono; [apply clear_memory_keep|]. cbn beta. intros. congruence.
      * intros. eapply ifok_mono; [apply clear_memory_keep|]. cbn beta. intros. congruence.
Qed.

Lemma sd_graph_keep lr g : ifok (sd_process_graph lr g) (fun r => skel (fst r) = skel g).
Proof.
  unfold sd_process_graph. kuse sd_vertex_keep. eapply ifok_bind; [apply (ifok_for (fun r => skel r = skel g)); auto|].
  - intros. kskip. kd; [kok|]. eapply ifok_mono; [apply sd_vertex_keep|]. cbn beta. intros. congruence.
  - intros. kok.
Qed.

(** ** RecursionDFS *)
Lemma rec_search_keep clk cur v : forall fuel g pc res t, ifok (rec_search fuel clk cur v g pc res t) (fun r => skel (fst r) = skel g).
Proof.
  induction fuel as [|f IH]; intros g pc res t; [exact I|]. cbn [rec_search]. do 2 kskip. do 3 (kd; [kok|]). kd.
  - kuse record_max_keep. kok.
  - kuse load_memory_keep. kskip. kuse load_memory_keep. kskip.
    eapply ifok_bind; [apply (ifok_for (fun r => skel (fst r) = skel g))|].
    + intros j [g' t'] H'. cbn [fst] in H'. kskip. kd; [kok|]. do 6 kskip. kuse IH. kskip. kok.
    + ki. congruence.
    + intros. ki. kuse clear_memory_keep. kok.
Qed.

Lemma rec_vertex_keep clk g cur t : ifok (rec_process_vertex clk g cur t) (fun r => skel (fst r) = skel g).
Proof.
  unfold rec_process_vertex. kskip. kuse load_memory_keep. kuse load_memory_keep. do 2 kskip.
  eapply (ifok_bind _ _ (fun r => skel (fst r) = skel g)).
  - kd; [|kok]. eapply ifok_mono; [apply rec_search_keep|]. cbn beta. intros. ki. congruence.
  - intros. ki. kuse clear_memory_keep. kok.
Qed.

Lemma rec_graph_keep clk start g : ifok (rec_process_graph clk start g) (fun r => skel (fst r) = skel g).
Proof.
  unfold rec_process_graph. kuse rec_vertex_keep. apply (ifok_loopN (fun s => skel (fst (fst s)) = skel g)); [|ki; congruence].
  intros [[g' i] t'] H'. ki. kd; [|kok]. kskip. kd; [kok|]. kd; [kok|]. kuse rec_vertex_keep. kok.
Qed.

(** ** DegreeHeuristic *)
Lemma heur_vertex_keep srt g nb cur res cand : ifok (heur_process_vertex srt g nb cur res cand) (fun r => skel (fst r) = skel g).
Proof.
  unfold heur_process_vertex. do 6 kskip. kd; [kok|].
  eapply ifok_bind; [apply (ifok_loopN (fun s => skel (fst (fst (fst s))) = skel g) (fun r => skel r = skel g))|].
  - intros [[[g' i] cs] cl'] H'. ki. kd; [|kok]. do 2 kskip. kd; [kok|]. do 3 kskip. kd; [kok|]. kd; [|kok]. do 3 kskip. kok.
  - ki. autorewrite with skel. auto.
  - intros. kok.
Qed.

Lemma heur_graph_keep srt g : ifok (heur_process_graph srt g) (fun r => skel r = skel g).
Proof.
  unfold heur_process_graph. kuse load_memory_keep. kuse load_memory_keep. kuse heur_vertex_keep.
  eapply ifok_bind; [apply (ifok_loopN (fun s => skel (fst (fst s)) = skel g) (fun r => skel (fst r) = skel g))|].
  - intros [[g' nb'] i] H'. ki. kd; [|kok]. kskip. kd; [kok|]. kuse heur_vertex_keep. kok.
  - ki. congruence.
  - intros. ki. eapply ifok_mono; [apply clear_memory_keep|]. cbn beta. intros. congruence.
Qed.

Lemma find_keep e g start heur dfs : ifok (find_max_cliques e g start heur dfs) (fun r => skel (fst r) = skel g).
Proof.
  unfold find_max_cliques. eapply (ifok_bind _ _ (fun r => skel r = skel g)).
  - kd; [apply heur_graph_keep|kok].
  - intros. kd; (kd; [|kok]); (eapply ifok_mono; [first [apply sd_graph_keep | apply rec_graph_keep]|]); cbn beta; intros; congruence.
Qed.

(** ** Python objects *)
Definition pskel (p : pygraph) := (option_map skel (p_G p), p_nvert p, p_nedges p).

Lemma get_keep e p lb ub heur dfs cont : ifok (get_max_clique e p lb ub heur dfs cont) (fun r => pskel (fst r) = pskel p).
Proof.
  unfold get_max_clique, loaded. destruct (p_G p) as [g|] eqn:E; [|kok; unfold pskel; cbn; rewrite E; auto].
  destruct (p_nvert p =? 0) eqn:E0; [kok; unfold pskel; cbn; rewrite E; auto|].
  kuse find_keep. kuse stored_keep. unfold pskel. rewrite E. kd; kok; cbn [p_G p_nvert p_nedges option_map]; congruence.
Qed.

Lemma reset_keep p : ifok (reset_search p) (fun r => pskel r = pskel p).
Proof. unfold reset_search. destruct (p_G p) as [g|] eqn:E; [|exact I]. kok. unfold pskel. cbn. rewrite E. reflexivity. Qed.

(** ** CliqueEnumerator *)
Lemma en_inner_keep cur v req csz g st cl : ifok (en_inner cur v req csz g st cl) (fun r => skel (fst (fst r)) = skel g).
Proof.
  unfold en_inner. apply (ifok_loopN (fun s => skel (fst (fst (fst s))) = skel g)); [|reflexivity].
  intros [[[g' j] st'] cl'] H'. ki. kd; [|kok]. kskip. kd; [kok|]. do 4 kskip. kd; [|kok]. kd.
  - do 5 kskip. kok.
  - kuse push_state_keep. kok.
Qed.

Lemma en_load_keep lr g en : ifok (en_load_vertex lr g en) (fun r => skel (fst (fst r)) = skel g /\ e_size (snd (fst r)) = e_size en).
Proof.
  unfold en_load_vertex. kskip. kuse root_state_keep. kskip. kd; [|kok; split; [congruence|reflexivity]].
  kuse clear_memory_keep. kok. split; [congruence|reflexivity].
Qed.

Lemma en_vertex_keep lr g en : ifok (en_process_vertex lr g en) (fun r => skel (fst r) = skel g /\ e_size (snd r) = e_size en).
Proof.
  unfold en_process_vertex. apply (ifok_loopN (fun s => skel (fst s) = skel g /\ e_size (snd s) = e_size en)); [|split; reflexivity].
  intros [g' en'] [H1 H2]. ki. kd; [|kok; auto]. kskip. kd; [kok; auto|]. kuse en_load_keep.
  match goal with H : _ /\ _ |- _ => destruct H end. kd; kok; split; cbn; congruence.
Qed.

(** A result of process_graph is below n_vert, or the enumeration has ended. *)
Definition en_end (g0 : graph) (k : nat) (r : graph * enum * nat) : Prop :=
  skel (fst (fst r)) = skel g0 /\ e_size (snd (fst r)) = k /\ (snd r < n_vert g0 \/ snd r = e_cur (snd (fst r)) /\ n_vert g0 <= snd r).

Lemma skel_nv g g' : skel g = skel g' -> n_vert g = n_vert g'.
Proof. unfold skel. congruence. Qed.

Definition en_inv (g0 : graph) (k : nat) (s : graph * enum) : Prop := skel (fst s) = skel g0 /\ e_size (snd s) = k.

Lemma en_turn_keep lr g0 k s : en_inv g0 k s -> ifok (en_turn lr s) (turn_ok (en_inv g0 k) (en_end g0 k)).
Proof.
  destruct s as [g en]. intros [H HS]. unfold en_turn. ki. pose proof (skel_nv _ _ H) as NV. destruct (Nat.ltb_spec (e_cur en) (n_vert g)) as [L|L].
  - kd.
    + kuse clear_memory_keep. kuse en_vertex_keep. kok. split; cbn; [|intuition congruence]. intuition congruence.
    + do 2 kskip. kuse en_inner_keep. destruct e.
      * kuse clear_memory_keep. kskip. kok. split; cbn; autorewrite with skel; auto; congruence.
      * apply ifok_ok. split; [cbn; congruence|]. split; [auto|]. left. cbn. lia.
      * kok. split; cbn; auto; congruence.
  - apply ifok_ok. split; [exact H|]. split; auto. right. cbn. split; auto. lia.
Qed.

Lemma en_graph_keep lr g en : ifok (en_process_graph lr g en) (en_end g (e_size en)).
Proof.
  assert (R : forall k, ifok (run2 k (en_turn lr) (g, en)) (en_end g (e_size en))).
  { intros k. apply (ifok_run2 (en_inv g (e_size en))); [|split; reflexivity]. intros. apply en_turn_keep; auto. }
  unfold en_process_graph. kd.
  - apply ifok_ok. split; [reflexivity|]. split; [reflexivity|]. right. cbn. auto.
  - destruct (Nat.ltb_spec (e_cur en) (n_vert g)) as [L|L].
    + rewrite Bool.andb_true_r. kd; auto. do 4 kskip. apply ifok_ok. split; [reflexivity|]. split; [reflexivity|]. left. exact L.
    + rewrite Bool.andb_false_r. auto.
Qed.

Lemma next_keep lr p en : ifok (next_clique lr p en) (fun r => pskel (fst (fst r)) = pskel p).
Proof.
  unfold next_clique. destruct (p_G p) as [g|] eqn:E; [|exact I]. eapply ifok_bind; [apply en_graph_keep|]. intros. ki.
  match goal with H : en_end _ _ _ |- _ => destruct H as [H _]; cbn [fst] in H end.
  unfold pskel. rewrite E. kd; [kok; cbn; congruence|]. kuse stored_keep. kok. cbn. congruence.
Qed.

Lemma drain_keep lr : forall fuel p en, ifok (drain fuel lr p en) (fun r => pskel (fst (fst r)) = pskel p).
Proof.
  induction fuel as [|f IH]; intros p en; [exact I|]. cbn [drain]. eapply ifok_bind; [apply next_keep|].
  intros [[p' en'] [c|x]] H; ki; [|kok]. kuse IH. kok.
Qed.

Lemma en_done lr g e' : n_vert g <= e_cur e' -> (e_size e' =? 0 = true -> e_cur e' = n_vert g) ->
  en_process_graph lr g e' = Ok (g, e', e_cur e').
Proof.
  intros L Z. unfold en_process_graph. destruct (Nat.ltb_spec (e_cur e') (n_vert g)); [lia|]. destruct (e_size e' =? 0) eqn:E0.
  - rewrite <- (Z eq_refl). destruct e'. reflexivity.
  - rewrite Bool.andb_false_r. set (k := n_vert g + max_degree g + 2). unfold run2.
    assert (L2 : loop2 k (en_turn lr) (g, e') = Ok (Done (g, e', e_cur e'))).
    { clearbody k. induction k as [|k IH]; cbn [loop2]; [|rewrite IH; reflexivity]. unfold en_turn.
      destruct (Nat.ltb_spec (e_cur e') (n_vert g)); [lia|]. reflexivity. }
    rewrite L2. reflexivity.
Qed.

Lemma next_exhausted lr p en p' en' g : p_G p = Some g -> n_vert g = p_nvert p + 1 ->
  next_clique lr p en = Ok (p', en', Raise EStopIteration) ->
  forall lr' q, pskel q = pskel p' -> next_clique lr' q en' = Ok (q, en', Raise EStopIteration).
Proof.
  intros E NV. unfold next_clique at 1. rewrite E. pose proof (en_graph_keep lr g en) as K.
  destruct (en_process_graph lr g en) as [[[g' e'] v]| |] eqn:EP; cbn [bind]; try discriminate.
  cbn [ifok] in K. destruct K as (K1 & K0 & K2). cbn [fst snd] in *.
  destruct (Nat.ltb_spec (p_nvert p) v) as [L|L].
  - intros Q lr' q SK. injection Q as <- <-. destruct K2 as [K2|[-> K2]]; [lia|].
    assert (NQ : p_nvert q = p_nvert p) by (unfold pskel in SK; cbn [set_G p_nvert] in SK; congruence).
    unfold next_clique. destruct q as [gq nq mq cq dq]. unfold pskel in SK. cbn [p_G p_nvert p_nedges set_G option_map] in *.
    destruct gq as [gq|]; [|discriminate]. assert (SG : skel gq = skel g) by (cbn in SK; congruence). pose proof (skel_nv _ _ SG) as NG.
    rewrite (en_done lr' gq e'); [|lia|].
    + cbn [bind]. destruct (Nat.ltb_spec nq (e_cur e')); [|lia]. reflexivity.
    + intros Z. rewrite K0 in Z. unfold en_process_graph in EP. rewrite Z in EP. injection EP as <- <-. cbn [e_cur] in *. lia.
  - destruct (stored_clique g' v) as [[g2 c]| |]; cbn [bind]; discriminate.
Qed.

(** ** The node-weighted graph *)
Definition wskel (W : nwgraph) := (skel (w_g W), w_wt W, w_deg W).

Lemma wskel_g W g : skel g = skel (w_g W) -> wskel (set_wg W g) = wskel W.
Proof. unfold wskel. cbn. congruence. Qed.
Lemma wskel_mem W m : wskel (set_wmem W m) = wskel W.
Proof. reflexivity. Qed.
Lemma wskel_skel W W' : wskel W = wskel W' -> skel (w_g W) = skel (w_g W').
Proof. unfold wskel. congruence. Qed.
Lemma wskel_set W W' g : wskel W = wskel W' -> skel g = skel (w_g W) -> wskel (set_wg W g) = wskel W'.
Proof. intros H E. rewrite wskel_g; auto. Qed.
Lemma wskel_same W g m : w_g W = g -> wskel (set_wg W (set_mem g m)) = wskel W.
Proof. intros <-. reflexivity. Qed.

Ltac wi := repeat match goal with x : (_ * _)%type |- _ => destruct x end; cbn [fst snd turn_ok] in *.
Ltac wskip := apply ifok_skip; intros; wi.
Ltac wsolve := cbn [w_g set_wg set_wmem] in *; autorewrite with skel in *; unfold wskel in *; cbn [w_g w_wt w_deg set_wg set_wmem] in *; autorewrite with skel in *; congruence.
Ltac wok := apply ifok_ok; cbn [fst snd turn_ok]; try wsolve.
Tactic Notation "wuse" uconstr(L) := eapply ifok_bind; [apply L|cbn beta; intros; wi].

Section Rounding.
Variable rnd : Z -> Z.

Lemma nw_record_keep W cur res pot : ifok (nw_record W cur res pot) (fun r => wskel r = wskel W).
Proof. unfold nw_record. do 4 wskip. wok. Qed.

Lemma nw_stored_keep W i : ifok (nw_stored W i) (fun r => wskel (fst r) = wskel W).
Proof. unfold nw_stored. wuse stored_keep. wok. Qed.

Lemma nd_inner_keep cur v cw buf W j st : ifok (nd_inner rnd cur v cw buf W j st) (fun r => wskel (fst (fst (fst (fst r)))) = wskel W).
Proof.
  unfold nd_inner. apply (ifok_loopN (fun s => wskel (fst (fst s)) = wskel W)); [|reflexivity].
  intros [[W1 j1] st1] H. wi. kd; [|wok]. do 7 wskip. kd; [|wok]. kd.
  - wskip. wuse nw_record_keep. wskip. wok.
  - wuse push_state_keep. wok.
Qed.

Lemma nd_turn_keep W0 cur v buf s : wskel (fst (fst s)) = wskel W0 ->
  ifok (nd_turn rnd cur v buf s) (turn_ok (fun s => wskel (fst (fst s)) = wskel W0) (fun r => wskel (fst r) = wskel W0)).
Proof.
  destruct s as [[W states] cw]. intros H. unfold nd_turn. wi. kd; [wok|]. kd; [wok|]. do 2 wskip. wuse nd_inner_keep.
  kd; [|wok]. wuse clear_memory_keep. do 2 wskip. wok.
Qed.

Lemma nd_vertex_keep lr W buf cur : ifok (nd_process_vertex rnd lr W buf cur) (fun r => wskel (fst r) = wskel W).
Proof.
  unfold nd_process_vertex. wskip. wuse root_state_keep. do 2 wskip. kd.
  - wuse clear_memory_keep. wok.
  - eapply ifok_bind; [apply (ifok_run2 (fun s => wskel (fst (fst s)) = wskel W) (fun r => wskel (fst r) = wskel W))|].
    + intros. apply nd_turn_keep. auto.
    + cbn [fst]. wsolve.
    + intros [W1 states] H1. wi. eapply (ifok_bind _ _ (fun r => skel r = skel (w_g W1))).
      * kd; [wok|]. apply clear_memory_keep.
      * intros. wuse clear_memory_keep. wok.
Qed.

Lemma nd_graph_keep lr junk W : ifok (nd_process_graph rnd lr junk W) (fun r => wskel (fst r) = wskel W).
Proof.
  unfold nd_process_graph. wuse nd_vertex_keep. eapply ifok_bind; [apply (ifok_for (fun r => wskel (fst r) = wskel W)); auto|].
  - intros i [W1 b1] H1. wi. wskip. kd; [wok|]. eapply ifok_mono; [apply nd_vertex_keep|]. cbn beta. intros. congruence.
  - intros. wi. wok.
Qed.

Lemma nh_vertex_keep srt W nb cur res cand : ifok (nh_process_vertex rnd srt W nb cur res cand) (fun r => wskel (fst r) = wskel W).
Proof.
  unfold nh_process_vertex. do 8 wskip. kd; [wok|].
  eapply ifok_bind; [apply (ifok_loopN (fun s => wskel (fst (fst (fst (fst s)))) = wskel W) (fun r => wskel r = wskel W))|].
  - intros [[[[W' i] cw] cl'] pot'] H'. wi. kd; [|wok]. do 2 wskip. kd; [wok|]. do 4 wskip. kd; [wok|]. kd; [|wok]. do 3 wskip. wok.
  - wi. wsolve.
  - intros. wok.
Qed.

Lemma nh_graph_keep srt W : ifok (nh_process_graph rnd srt W) (fun r => wskel r = wskel W).
Proof.
  unfold nh_process_graph. wuse load_memory_keep. wuse load_memory_keep. wuse nh_vertex_keep.
  eapply ifok_bind; [apply (ifok_loopN (fun s => wskel (fst (fst s)) = wskel W) (fun r => wskel (fst r) = wskel W))|].
  - intros [[W' nb'] i] H'. wi. kd; [|wok]. wskip. kd; [wok|]. wuse nh_vertex_keep. wok.
  - wi. wsolve.
  - intros. wi. wuse clear_memory_keep. wok.
Qed.

Lemma nw_find_keep e W start heur dfs : ifok (nw_find_max_cliques rnd e W start heur dfs) (fun r => wskel (fst r) = wskel W).
Proof.
  unfold nw_find_max_cliques. eapply (ifok_bind _ _ (fun r => wskel r = wskel W)).
  - kd; [apply nh_graph_keep|wok].
  - intros. kd; [|wok]. eapply ifok_mono; [apply nd_graph_keep|]. cbn beta. intros. congruence.
Qed.

Definition qskel (p : pynw) := (option_map wskel (q_G p), q_nvert p, q_nedges p).

Lemma nw_get_keep e p lb ub heur dfs : ifok (nw_get_max_clique rnd e p lb ub heur dfs) (fun r => qskel (fst r) = qskel p).
Proof.
  unfold nw_get_max_clique, nw_loaded. cbn [q_G q_nvert]. destruct (q_G p) as [W|] eqn:E; [|apply ifok_ok; unfold qskel; cbn; rewrite E; auto].
  destruct (q_nvert p =? 0) eqn:E0; [apply ifok_ok; unfold qskel; cbn; rewrite E; auto|].
  wuse nw_find_keep. wuse nw_stored_keep. wskip. apply ifok_ok. unfold qskel. rewrite E. cbn [fst q_G q_nvert q_nedges option_map].
  do 3 f_equal. wsolve.
Qed.

Lemma nw_reset_keep p : ifok (nw_reset_search p) (fun r => qskel r = qskel p).
Proof. unfold nw_reset_search. destruct (q_G p) as [g|] eqn:E; [|exact I]. apply ifok_ok. unfold qskel. cbn. rewrite E. reflexivity. Qed.

Lemma ne_inner_keep cur v req cw pot buf W st : ifok (ne_inner rnd cur v req cw pot buf W st) (fun r => wskel (fst (fst r)) = wskel W).
Proof.
  unfold ne_inner. apply (ifok_loopN (fun s => wskel (fst (fst s)) = wskel W)); [|reflexivity].
  intros [[W' j] st'] H'. wi. kd; [|wok]. wskip. kd; [wok|]. do 6 wskip. kd; [|wok]. kd.
  - do 5 wskip. wok.
  - wuse push_state_keep. wok.
Qed.

Lemma ne_load_keep lr W en : ifok (ne_load_vertex rnd lr W en) (fun r => wskel (fst (fst r)) = wskel W).
Proof. unfold ne_load_vertex. wskip. wuse root_state_keep. do 2 wskip. kd; [|wok]. wuse clear_memory_keep. wok. Qed.

Lemma ne_vertex_keep lr W en : ifok (ne_process_vertex rnd lr W en) (fun r => wskel (fst r) = wskel W).
Proof.
  unfold ne_process_vertex. apply (ifok_loopN (fun s => wskel (fst s) = wskel W)); [|reflexivity].
  intros [W' en'] H'. wi. kd; [|wok]. wskip. kd; [wok|]. wuse ne_load_keep. kd; wok.
Qed.

Definition ne_end (W0 : nwgraph) (r : nwgraph * nenum * nat) : Prop :=
  wskel (fst (fst r)) = wskel W0
  /\ (snd r < n_vert (w_g W0) \/ snd r = ne_cur (snd (fst r)) /\ n_vert (w_g W0) <= snd r).

Lemma ne_turn_keep lr W0 s : wskel (fst s) = wskel W0 -> ifok (ne_turn rnd lr s) (turn_ok (fun s => wskel (fst s) = wskel W0) (ne_end W0)).
Proof.
  destruct s as [W en]. intros H. unfold ne_turn. wi. pose proof (skel_nv _ _ (wskel_skel _ _ H)) as NV.
  destruct (Nat.ltb_spec (ne_cur en) (n_vert (w_g W))) as [L|L].
  - destruct (ne_states en) as [|[st pot] rest].
    + wuse clear_memory_keep. wuse ne_vertex_keep. wok.
    + do 2 wskip. wuse ne_inner_keep. match goal with x : ne_result |- _ => destruct x end.
      * wuse clear_memory_keep. do 2 wskip. wok.
      * apply ifok_ok. split; [cbn [fst]; wsolve|]. left. cbn. lia.
      * wok.
  - apply ifok_ok. split; [exact H|]. right. cbn. split; auto. lia.
Qed.

Lemma ne_graph_keep lr W en : ifok (ne_process_graph rnd lr W en) (ne_end W).
Proof. apply (ifok_run2 (fun s => wskel (fst s) = wskel W)); [|reflexivity]. intros. apply ne_turn_keep; auto. Qed.

Lemma nw_next_keep lr p en : ifok (nw_next_clique rnd lr p en) (fun r => qskel (fst (fst r)) = qskel p).
Proof.
  unfold nw_next_clique. destruct (q_G p) as [W|] eqn:E; [|exact I]. eapply ifok_bind; [apply ne_graph_keep|]. intros. wi.
  match goal with H : ne_end _ _ |- _ => destruct H as [H _]; cbn [fst] in H end.
  unfold qskel. rewrite E. kd; [apply ifok_ok; cbn; congruence|]. wuse nw_stored_keep. apply ifok_ok. cbn. congruence.
Qed.

Lemma nw_drain_keep lr : forall fuel p en, ifok (nw_drain rnd fuel lr p en) (fun r => qskel (fst (fst r)) = qskel p).
Proof.
  induction fuel as [|f IH]; intros p en; [exact I|]. cbn [nw_drain]. eapply ifok_bind; [apply nw_next_keep|].
  intros [[p' en'] [c|x]] H; wi; [|apply ifok_ok; auto]. wuse IH. apply ifok_ok. cbn [fst]. congruence.
Qed.

Lemma ne_done lr W e' : n_vert (w_g W) <= ne_cur e' -> ne_process_graph rnd lr W e' = Ok (W, e', ne_cur e').
Proof.
  intros L. unfold ne_process_graph. set (k := n_vert (w_g W) + max_degree (w_g W) + 2). unfold run2.
  assert (L2 : loop2 k (ne_turn rnd lr) (W, e') = Ok (Done (W, e', ne_cur e'))).
  { clearbody k. induction k as [|k IH]; cbn [loop2]; [|rewrite IH; reflexivity]. unfold ne_turn.
    destruct (Nat.ltb_spec (ne_cur e') (n_vert (w_g W))); [lia|]. reflexivity. }
  rewrite L2. reflexivity.
Qed.

Lemma nw_next_exhausted lr p en p' en' W : q_G p = Some W -> n_vert (w_g W) = q_nvert p + 1 ->
  nw_next_clique rnd lr p en = Ok (p', en', Raise EStopIteration) ->
  forall lr' q, qskel q = qskel p' -> nw_next_clique rnd lr' q en' = Ok (q, en', Raise EStopIteration).
Proof.
  intros E NV. unfold nw_next_clique at 1. rewrite E. pose proof (ne_graph_keep lr W en) as K.
  destruct (ne_process_graph rnd lr W en) as [[[W' e'] v]| |] eqn:EP; cbn [bind]; try discriminate.
  cbn [ifok] in K. destruct K as (K1 & K2). cbn [fst snd] in *.
  destruct (Nat.ltb_spec (q_nvert p) v) as [L|L].
  - intros Q lr' q SK. injection Q as <- <-. destruct K2 as [K2|[-> K2]]; [lia|].
    unfold nw_next_clique. destruct q as [gq nq mq cq dq]. unfold qskel in SK. cbn [q_G q_nvert q_nedges set_Q option_map] in *.
    destruct gq as [gq|]; [|discriminate]. assert (NQ : nq = q_nvert p) by congruence.
    assert (SG : wskel gq = wskel W) by (cbn in SK; congruence). pose proof (skel_nv _ _ (wskel_skel _ _ SG)) as NG.
    rewrite (ne_done lr' gq e') by lia. cbn [bind]. destruct (Nat.ltb_spec nq (ne_cur e')); [|lia]. reflexivity.
  - destruct (nw_stored W' v) as [[g2 c]| |]; cbn [bind]; discriminate.
Qed.

End Rounding.
