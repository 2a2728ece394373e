(** FlagFacts: the attribute search_done after any program. *)
From Verif Require Import Base MBits MUtils MGraph MHeur MStack MRec MEnum MApi MExt MNW MNWEnum MNWApi Spec SpecNW SpecKeep SpecScript BaseFacts ConstructFacts KeepFacts KeepProps StateFacts ScriptFacts LoadFacts.
Local Open Scope nat_scope.

(** ** Graph *)
Lemma gcall_calls o c p its p' its' x : calls o p -> gcall_run c p its = Ok (p', its', x) -> calls o p'.
Proof.
  intros C E. destruct c; unfold gcall_run in E.
  - destruct (get_max_clique e p lb ub heur dfs cont) as [[q r]| |] eqn:G; cbn [bind] in E; try discriminate. injection E as <- _ _. eapply c_get; eauto.
  - destruct (get_correspondence e p len2 lb ub heur dfs cont) as [[q r]| |] eqn:G; cbn [bind] in E; try discriminate. injection E as <- _ _. eapply c_corr; eauto.
  - destruct (reset_search p) as [q| |] eqn:G; cbn [bind] in E; try discriminate. injection E as <- _ _. eapply c_reset; eauto.
  - destruct (all_cliques p size); injection E as <- _ _; auto.
  - destruct (nth_error its i) as [en|]; [|injection E as <- _ _; auto].
    destruct (next_clique lr p en) as [[[q en'] r]| |] eqn:G; cbn [bind] in E; try discriminate. injection E as <- _ _. eapply c_next; eauto.
  - destruct (nth_error its i) as [en|]; [|injection E as <- _ _; auto].
    destruct (next_correspondence lr len2 p en) as [[[q en'] r]| |] eqn:G; cbn [bind] in E; try discriminate. injection E as <- _ _. eapply c_next_corr; eauto.
  - destruct (vertex_neighbors p v); cbn [bind] in E; try discriminate. injection E as <- _ _. auto.
  - destruct (to_matrix p); cbn [bind] in E; try discriminate. injection E as <- _ _. auto.
  - destruct (to_adjlist p); cbn [bind] in E; try discriminate. injection E as <- _ _. auto.
  - injection E as <- _ _. auto.
  - injection E as <- _ _. auto.
  - injection E as <- _ _. auto.
Qed.

Lemma sd_cur lr g : ifok (sd_process_graph lr g) (fun r => snd r = n_vert (fst r)).
Proof. unfold sd_process_graph. apply ifok_skip. intros g1. apply ifok_skip. intros g2. apply ifok_ok. reflexivity. Qed.

Definition said (f : option bool) (b : bool) : Prop := match f with Some c => b = c | None => True end.

Lemma get_flag n e p lb ub heur dfs cont f : 1 <= n -> agrees n p -> (exists g, p_G p = Some g /\ n_vert g = p_nvert p + 1) -> said f (p_done p) ->
  ifok (get_max_clique e p lb ub heur dfs cont) (fun r => said (gflag_search e dfs cont f) (p_done (fst r))).
Proof.
  intros Hn (_ & A2 & A3) (g & EG & NV) SF. unfold get_max_clique, loaded. rewrite EG. destruct (Nat.eqb_spec (p_nvert p) 0) as [E|_]; [lia|].
  assert (X : ifok (find_max_cliques e (set_limit (set_best g (if CUR_MAX_SIZE g <? lb then lb else CUR_MAX_SIZE g) (CUR_MAX_LOC g))
      (if ub <? CLIQUE_LIMIT (set_best g (if CUR_MAX_SIZE g <? lb then lb else CUR_MAX_SIZE g) (CUR_MAX_LOC g)) then ub
       else CLIQUE_LIMIT (set_best g (if CUR_MAX_SIZE g <? lb then lb else CUR_MAX_SIZE g) (CUR_MAX_LOC g)))) (if cont then p_cur p else 0)
      (if cont && negb (p_cur p =? 0) then false else heur) dfs)
    (fun r => if dfs then match clock e with None => snd r = n + 1 | Some _ => True end else snd r = if cont then p_cur p else 0)).
  { unfold find_max_cliques. eapply ifok_bind with (P := fun r => n_vert r = n + 1).
    - destruct (if cont && negb (p_cur p =? 0) then false else heur).
      + eapply ifok_mono; [apply heur_graph_keep|]. cbn beta. intros r H. apply skel_nv in H. rewrite H. cbn. lia.
      + apply ifok_ok. cbn. lia.
    - intros g1 N1. destruct (clock e); destruct dfs; try (apply ifok_ok; reflexivity).
      + destruct (rec_process_graph _ _ _); exact I.
      + pose proof (sd_cur (lr_order e) g1) as H1. pose proof (sd_graph_keep (lr_order e) g1) as H2.
        destruct (sd_process_graph (lr_order e) g1) as [[g2 c]| |]; cbn in *; auto. apply skel_nv in H2. cbn in H2. lia. }
  eapply ifok_bind; [exact X|]. intros [g1 c] H1. apply ifok_skip. intros [g2 ans].
  assert (Y : said (gflag_search e dfs cont f) (p_nvert p <=? c)).
  { unfold gflag_search. destruct dfs.
    - destruct (clock e); [exact I|]. cbn in *. subst c. apply Nat.leb_le. lia.
    - cbn [snd] in H1. subst c. destruct cont.
      + rewrite A2, <- A3. exact SF.
      + cbn. destruct (Nat.leb_spec (p_nvert p) 0); [lia|reflexivity]. }
  destruct (length ans <? lb); apply ifok_ok; exact Y.
Qed.

Lemma next_flag lr p en : ifok (next_clique lr p en) (fun r => p_done (fst (fst r)) = p_done p).
Proof.
  unfold next_clique. destruct (p_G p) as [g|]; [|exact I]. apply ifok_skip. intros [[g1 en1] v].
  destruct (p_nvert p <? v); [apply ifok_ok; reflexivity|]. apply ifok_skip. intros [g2 c]. apply ifok_ok. reflexivity.
Qed.

Lemma gcall_flag n c p its f : 1 <= n -> agrees n p -> (exists g, p_G p = Some g /\ n_vert g = p_nvert p + 1) -> said f (p_done p) ->
  ifok (gcall_run c p its) (fun r => said (gflag [c] f) (p_done (fst (fst r)))).
Proof.
  intros Hn A SZ SF. destruct c; cbn [gflag]; unfold gcall_run.
  - eapply ifok_bind; [apply (get_flag n e p lb ub heur dfs cont f Hn A SZ SF)|]. intros [q r] H. exact H.
  - unfold get_correspondence. pose proof (get_flag n e p lb ub heur dfs cont f Hn A SZ SF) as H.
    destruct (get_max_clique e p lb ub heur dfs cont) as [[q [r|x]]| |]; cbn [bind ifok fst] in *; auto. destruct (correspondence2 len2 r); exact H || exact I.
  - unfold reset_search. destruct (p_G p); [|exact I]. reflexivity.
  - destruct (all_cliques p size); exact SF.
  - destruct (nth_error its i) as [en|]; [|exact SF]. eapply ifok_bind; [apply next_flag|]. intros [[q en'] r] H. cbn in *. rewrite H. exact SF.
  - destruct (nth_error its i) as [en|]; [|exact SF]. unfold next_correspondence. pose proof (next_flag lr p en) as H.
    destruct (next_clique lr p en) as [[[q en'] [r|x]]| |]; cbn [bind ifok fst] in *; auto; [destruct (correspondence2 len2 r); try exact I|]; cbn; rewrite H; exact SF.
  - apply ifok_skip. intros. exact SF.
  - apply ifok_skip. intros. exact SF.
  - apply ifok_skip. intros. exact SF.
  - exact SF.
  - exact SF.
  - exact SF.
Qed.

Lemma gflag_cons c s f : gflag (c :: s) f = gflag s (gflag [c] f).
Proof. destruct c; reflexivity. Qed.

Lemma observe_flag o n adj : made o n adj -> 1 <= n -> forall s p its f l, calls o p -> said f (p_done p) ->
  observe (s ++ [CDone]) p its = Ok l -> exists l0 b, l = l0 ++ [SFlag b] /\ length l0 = length s /\ said (gflag s f) b.
Proof.
  intros M Hn. destruct (made_fresh o n adj M) as (a & cap & m & g & EO & _).
  assert (A : agrees n o). { rewrite EO. split; [discriminate|]. split; auto. cbn. destruct (Nat.leb_spec n 0); [lia|auto]. }
  induction s as [|c s IH]; intros p its f l C SF E.
  - cbn in E. injection E as <-. exists [], (p_done p). auto.
  - cbn [app observe] in E. destruct (gcall_run c p its) as [[[q its'] x]| |] eqn:R; cbn [bind] in E; try discriminate.
    destruct (observe (s ++ [CDone]) q its') as [l1| |] eqn:O; cbn [bind] in E; try discriminate. injection E as <-.
    pose proof (ifok_use _ _ _ (gcall_flag n c p its f Hn (calls_agrees n o p Hn A C) (made_calls_sized _ _ _ _ M C) SF) R) as F1.
    destruct (IH q its' (gflag [c] f) l1 (gcall_calls _ _ _ _ _ _ _ C R) F1 O) as (l0 & b & -> & L & B).
    exists (x :: l0), b. cbn [app length]. rewrite gflag_cons. auto.
Qed.

Lemma made_flag p n adj s l b : made p n adj -> 1 <= n -> gflag s (Some false) = Some b -> observe (s ++ [CDone]) p [] = Ok l ->
  exists l0, l = l0 ++ [SFlag b] /\ length l0 = length s.
Proof.
  intros M Hn F E. destruct (made_fresh p n adj M) as (a & cap & m & g & EO & _).
  destruct (observe_flag p n adj M Hn s p [] (Some false) l (c_start _)) as (l0 & c & -> & L & B).
  - rewrite EO. reflexivity.
  - exact E.
  - rewrite F in B. cbn in B. subst c. eauto.
Qed.

(** ** NWGraph *)
Section Rounding.
Variable rnd : Z -> Z.

Lemma ncall_ncalls o c p its p' its' x : ncalls rnd o p -> ncall_run rnd c p its = Ok (p', its', x) -> ncalls rnd o p'.
Proof.
  intros C E. destruct c; unfold ncall_run in E.
  - destruct (nw_get_max_clique rnd e p lb ub heur dfs) as [[q r]| |] eqn:G; cbn [bind] in E; try discriminate. injection E as <- _ _. eapply nc_get; eauto.
  - destruct (nw_get_correspondence rnd e p len2 lb ub heur dfs) as [[q r]| |] eqn:G; cbn [bind] in E; try discriminate. injection E as <- _ _. eapply nc_corr; eauto.
  - destruct (nw_reset_search p) as [q| |] eqn:G; cbn [bind] in E; try discriminate. injection E as <- _ _. eapply nc_reset; eauto.
  - destruct (nw_all_cliques e p T); injection E as <- _ _; auto.
  - destruct (nth_error its i) as [en|]; [|injection E as <- _ _; auto].
    destruct (nw_next_clique rnd lr p en) as [[[q en'] r]| |] eqn:G; cbn [bind] in E; try discriminate. injection E as <- _ _. eapply nc_next; eauto.
  - destruct (nth_error its i) as [en|]; [|injection E as <- _ _; auto].
    destruct (nw_next_correspondence rnd lr len2 p en) as [[[q en'] r]| |] eqn:G; cbn [bind] in E; try discriminate. injection E as <- _ _. eapply nc_next_corr; eauto.
  - destruct (nw_get_clique_weight rnd p c); cbn [bind] in E; try discriminate. injection E as <- _ _. auto.
  - destruct (nw_all_weights p); cbn [bind] in E; try discriminate. injection E as <- _ _. auto.
  - destruct (nw_vertex_data p v); cbn [bind] in E; try discriminate. injection E as <- _ _. auto.
  - destruct (nw_to_matrix p); cbn [bind] in E; try discriminate. injection E as <- _ _. auto.
  - destruct (nw_to_adjlist p); cbn [bind] in E; try discriminate. injection E as <- _ _. auto.
  - injection E as <- _ _. auto.
  - injection E as <- _ _. auto.
Qed.

Lemma nd_cur lr junk W : ifok (nd_process_graph rnd lr junk W) (fun r => snd r = n_vert (w_g (fst r))).
Proof. unfold nd_process_graph. apply ifok_skip. intros [W1 b1]. apply ifok_skip. intros [W2 b2]. apply ifok_ok. reflexivity. Qed.

Lemma nget_flag p e lb ub heur dfs : 1 <= q_nvert p -> (exists W, q_G p = Some W /\ n_vert (w_g W) = q_nvert p + 1) ->
  ifok (nw_get_max_clique rnd e p lb ub heur dfs) (fun r => q_done (fst r) = dfs).
Proof.
  intros Hn (W & EG & NV). unfold nw_get_max_clique, nw_loaded. cbn [q_G q_nvert]. rewrite EG. destruct (Nat.eqb_spec (q_nvert p) 0) as [E|_]; [lia|].
  set (W0 := mkW _ _ _ _ _ _ _).
  assert (X : ifok (nw_find_max_cliques rnd e W0 0 heur dfs) (fun r => if dfs then snd r = q_nvert p + 1 else snd r = 0)).
  { unfold nw_find_max_cliques. eapply ifok_bind with (P := fun r => n_vert (w_g r) = q_nvert p + 1).
    - destruct heur.
      + eapply ifok_mono; [apply nh_graph_keep|]. cbn beta. intros r H. apply wskel_skel, skel_nv in H. rewrite H. subst W0. cbn. lia.
      + apply ifok_ok. subst W0. cbn. lia.
    - intros W1 N1. destruct dfs; [|apply ifok_ok; reflexivity].
      pose proof (nd_cur (nw_lr e) (nw_junk e) W1) as H1. pose proof (nd_graph_keep rnd (nw_lr e) (nw_junk e) W1) as H2.
      destruct (nd_process_graph rnd (nw_lr e) (nw_junk e) W1) as [[W2 c]| |]; cbn in *; auto. apply wskel_skel, skel_nv in H2. lia. }
  eapply ifok_bind; [exact X|]. intros [W1 c] H1. apply ifok_skip. intros [W2 ans]. apply ifok_skip. intros wt. apply ifok_ok. cbn [fst q_done].
  destruct dfs; cbn [snd] in H1; subst c; [apply Nat.leb_le; lia|]. destruct (Nat.leb_spec (q_nvert p) 0); [lia|reflexivity].
Qed.

Lemma nnext_flag lr p en : ifok (nw_next_clique rnd lr p en) (fun r => q_done (fst (fst r)) = q_done p).
Proof.
  unfold nw_next_clique. destruct (q_G p) as [g|]; [|exact I]. apply ifok_skip. intros [[g1 en1] v].
  destruct (q_nvert p <? v); [apply ifok_ok; reflexivity|]. apply ifok_skip. intros [g2 c]. apply ifok_ok. reflexivity.
Qed.

Lemma ncall_flag c p its : 1 <= q_nvert p -> (exists W, q_G p = Some W /\ n_vert (w_g W) = q_nvert p + 1) ->
  ifok (ncall_run rnd c p its) (fun r => q_done (fst (fst r)) = nflag [c] (q_done p)).
Proof.
  intros Hn SZ. destruct c; cbn [nflag]; unfold ncall_run.
  - eapply ifok_bind; [apply (nget_flag p e lb ub heur dfs Hn SZ)|]. intros [q r] H. exact H.
  - unfold nw_get_correspondence. pose proof (nget_flag p e lb ub heur dfs Hn SZ) as H.
    destruct (nw_get_max_clique rnd e p lb ub heur dfs) as [[q [r|x]]| |]; cbn [bind ifok fst] in *; auto. destruct (correspondence2 len2 r); exact H || exact I.
  - unfold nw_reset_search. destruct (q_G p); [|exact I]. reflexivity.
  - destruct (nw_all_cliques e p T); reflexivity.
  - destruct (nth_error its i) as [en|]; [|reflexivity]. eapply ifok_bind; [apply nnext_flag|]. intros [[q en'] r] H. exact H.
  - destruct (nth_error its i) as [en|]; [|reflexivity]. unfold nw_next_correspondence. pose proof (nnext_flag lr p en) as H.
    destruct (nw_next_clique rnd lr p en) as [[[q en'] [r|x]]| |]; cbn [bind ifok fst] in *; auto. destruct (correspondence2 len2 r); exact H || exact I.
  - apply ifok_skip. reflexivity.
  - apply ifok_skip. reflexivity.
  - apply ifok_skip. reflexivity.
  - apply ifok_skip. reflexivity.
  - apply ifok_skip. reflexivity.
  - reflexivity.
  - reflexivity.
Qed.

Lemma nflag_cons c s f : nflag (c :: s) f = nflag s (nflag [c] f).
Proof. destruct c; reflexivity. Qed.

Lemma nobserve_flag o n adj w : nmade rnd o n adj w -> 1 <= q_nvert o -> forall s p its l, ncalls rnd o p ->
  nobserve rnd (s ++ [NDone]) p its = Ok l -> exists l0, l = l0 ++ [SFlag (nflag s (q_done p))] /\ length l0 = length s.
Proof.
  intros M Hn. induction s as [|c s IH]; intros p its l C E.
  - cbn in E. injection E as <-. exists []. auto.
  - cbn [app nobserve] in E. destruct (ncall_run rnd c p its) as [[[q its'] x]| |] eqn:R; cbn [bind] in E; try discriminate.
    destruct (nobserve rnd (s ++ [NDone]) q its') as [l1| |] eqn:O; cbn [bind] in E; try discriminate. injection E as <-.
    assert (NP : 1 <= q_nvert p). { pose proof (ncalls_keep rnd _ _ C) as K. unfold qskel in K. assert (q_nvert p = q_nvert o) by congruence. lia. }
    pose proof (ifok_use _ _ _ (ncall_flag c p its NP (nmade_calls_sized rnd _ _ _ _ _ M C)) R) as F1. cbn [fst] in F1.
    destruct (IH q its' l1 (ncall_ncalls _ _ _ _ _ _ _ C R) O) as (l0 & -> & L).
    exists (x :: l0). cbn [app length]. rewrite nflag_cons, F1. auto.
Qed.

Lemma nmade_flag p n adj w s l : nmade rnd p n adj w -> 1 <= n -> nobserve rnd (s ++ [NDone]) p [] = Ok l ->
  exists l0, l = l0 ++ [SFlag (nflag s false)] /\ length l0 = length s.
Proof.
  intros M Hn E. destruct (nmade_loaded _ _ _ _ _ M) as (_ & m & cap & edges & L). destruct (nw_load_parts _ _ _ _ _ _ _ L) as (W & EP & _).
  destruct (nobserve_flag p n adj w M) with (s := s) (p := p) (its := @nil nenum) (l := l) as (l0 & -> & LL).
  - rewrite EP. exact Hn.
  - apply nc_start.
  - exact E.
  - rewrite EP. cbn [q_done]. eauto.
Qed.
End Rounding.
