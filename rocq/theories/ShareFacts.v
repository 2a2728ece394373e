(** ShareFacts: an iterator and its copies deliver one sequence. *)
From Verif Require Import Base BaseFacts MBits MUtils MGraph MHeur MStack MRec MEnum MApi MExt MNW MNWEnum MNWApi MNWCorr MGen MCorr MShare Spec SpecNW SpecKeep SpecShare KeepProps.
Local Open Scope nat_scope.

Section Generic.
  Context {P En A : Type}.
  Variable next : P -> En -> outcome (P * En * exc A).

  (** The enumerator delivers [l] and then stops for good. *)
  Inductive gives : P -> En -> list A -> Prop :=
  | g_end p en p' en' : next p en = Ok (p', en', Raise EStopIteration) -> next p' en' = Ok (p', en', Raise EStopIteration) -> gives p en []
  | g_one p en p' en' c l : next p en = Ok (p', en', Ret c) -> gives p' en' l -> gives p en (c :: l).

  Lemma gives_run ops : forall n p en l, gives p en l -> well_named n ops ->
    exists p' h, run_iters next ops p (mkHs [en] (repeat 0 n)) = Ok (p', h, results (steps ops) l).
  Proof.
    induction ops as [|o ops IH]; intros n p en l G W.
    - exists p. eexists. cbn [run_iters]. unfold results. cbn. rewrite Nat.sub_0_l || idtac. reflexivity.
    - destruct o as [x|x]; cbn [well_named] in W; destruct W as (X & W).
      + cbn [run_iters]. unfold copy_iterator. cbn [h_ptr h_ens].
        assert (E : nth_error (repeat 0 n) x = Some 0) by (rewrite (nth_error_nth' _ 0) by (rewrite repeat_length; auto); rewrite nth_repeat; reflexivity).
        rewrite E. cbn [bind]. replace (repeat 0 n ++ [0]) with (repeat 0 (S n)) by (apply repeat_cons).
        destruct (IH (S n) p en l G W) as (p' & h & R). exists p', h. exact R.
      + cbn [run_iters]. unfold next_of. cbn [h_ptr h_ens].
        assert (E : nth_error (repeat 0 n) x = Some 0) by (rewrite (nth_error_nth' _ 0) by (rewrite repeat_length; auto); rewrite nth_repeat; reflexivity).
        rewrite E. cbn [nth_error]. inversion G as [? ? p1 en1 E1 E2|? ? p1 en1 c l' E1 G']; subst; rewrite E1; cbn [bind firstn skipn app].
        * assert (G1 : gives p1 en1 []) by (econstructor; eauto).
          destruct (IH n p1 en1 [] G1 W) as (p' & h & R). rewrite R. cbn [bind]. exists p', h. do 2 f_equal.
          unfold results, steps. cbn [filter length]. rewrite !firstn_nil. cbn [map app]. rewrite !Nat.sub_0_r. reflexivity.
        * destruct (IH n p1 en1 l' G' W) as (p' & h & R). rewrite R. cbn [bind]. exists p', h. reflexivity.
  Qed.
End Generic.

Lemma next_raises lr p en p' en' x : next_clique lr p en = Ok (p', en', Raise x) -> x = EStopIteration.
Proof.
  unfold next_clique. destruct (p_G p) as [g|]; [|discriminate]. intros E. apply bind_ok in E. destruct E as ([[g' en0] v] & _ & E).
  destruct (p_nvert p <? v); [injection E as _ _ <-; reflexivity|]. apply bind_ok in E. destruct E as ([g'' c] & _ & E). discriminate.
Qed.

Lemma decode_no_stop n2 c : correspondence2 n2 c <> Ok (Raise EStopIteration).
Proof.
  induction c as [|v c IH]; cbn [correspondence2]; [discriminate|]. destruct (v =? 0); [discriminate|]. destruct (n2 =? 0); [discriminate|].
  destruct (correspondence2 n2 c) as [[[a b]|x]| |]; cbn [bind]; try discriminate. intros E. apply IH. congruence.
Qed.

Section Graph.
  Variables (o : pygraph) (n : nat) (adj : nat -> nat -> Prop).
  Hypothesis M : made o n adj.

  Lemma drain_gives lr f : forall p en p' en' l, calls o p -> drain f lr p en = Ok (p', en', l) -> gives (next_clique lr) p en l.
  Proof.
    induction f as [|f IH]; intros p en p' en' l C E; [discriminate|]. cbn [drain] in E. apply bind_ok in E.
    destruct E as ([[p1 en1] [c|x]] & E1 & E).
    - apply bind_ok in E. destruct E as ([[p2 en2] l2] & E2 & E). injection E as -> -> <-. eapply g_one; eauto. eapply IH; eauto. eapply c_next; eauto.
    - injection E as -> -> <-. rewrite (next_raises _ _ _ _ _ _ E1) in E1. eapply g_end; eauto.
      eapply exhausted_stays; eauto. apply c_start.
  Qed.

  Lemma copies_share lr p en f p' en' l ops : calls o p -> drain f lr p en = Ok (p', en', l) -> well_named 1 ops ->
    exists q h, run_iters (next_clique lr) ops p (mkHs [en] [0]) = Ok (q, h, results (steps ops) l).
  Proof. intros C E W. apply (gives_run (next_clique lr) ops 1 p en l); auto. eapply drain_gives; eauto. Qed.

  Lemma corr_gives lr n2 f : forall p en p' en' l, calls o p -> corr_drain f lr n2 p en = Ok (p', en', Ret l) -> gives (next_correspondence lr n2) p en l.
  Proof.
    induction f as [|f IH]; intros p en p' en' l C E; [discriminate|]. cbn [corr_drain] in E. apply bind_ok in E.
    destruct E as ([[p1 en1] [c|x]] & E1 & E).
    - apply bind_ok in E. destruct E as ([[p2 en2] [l2|x]] & E2 & E); [|discriminate]. injection E as -> -> <-.
      eapply g_one; eauto. eapply IH; eauto. eapply c_next_corr; eauto.
    - destruct x; try discriminate E. injection E as -> -> <-. eapply g_end; eauto.
      unfold next_correspondence in *. apply bind_ok in E1. destruct E1 as ([[p2 en2] [c|x]] & E1 & E).
      + apply bind_ok in E. destruct E as (y & D & E). injection E as -> -> ->. exfalso. exact (decode_no_stop n2 c D).
      + injection E as -> -> ->. rewrite (exhausted_stays o n adj p lr en p' en' M C E1 lr p' (c_start _)). reflexivity.
  Qed.

  Lemma corr_copies_share lr n2 p en f p' en' l ops : calls o p -> corr_drain f lr n2 p en = Ok (p', en', Ret l) -> well_named 1 ops ->
    exists q h, run_iters (next_correspondence lr n2) ops p (mkHs [en] [0]) = Ok (q, h, results (steps ops) l).
  Proof. intros C E W. apply (gives_run (next_correspondence lr n2) ops 1 p en l); auto. eapply corr_gives; eauto. Qed.

  (** The wrapped iterator. *)
  Context {E1 E2 : Type}.

  Lemma pick_no_stop {T : Type} (l : list T) idx : pick_elems l idx <> Raise EStopIteration.
  Proof.
    induction idx as [|i r IH]; cbn [pick_elems]; [discriminate|]. destruct (nth_error l i); [|discriminate].
    destruct (pick_elems l r) as [xs|x]; [discriminate|]. intros E. apply IH. congruence.
  Qed.

  Lemma format_no_stop (g : gengraph E1 E2) ab : gen_format g ab <> Raise EStopIteration.
  Proof.
    unfold gen_format. pose proof (pick_no_stop (gs_elems (gg_S1 g)) (fst ab)). pose proof (pick_no_stop (gs_elems (gg_S2 g)) (snd ab)).
    destruct (pick_elems (gs_elems (gg_S1 g)) (fst ab)); [|congruence]. destruct (pick_elems (gs_elems (gg_S2 g)) (snd ab)); congruence.
  Qed.

  Lemma gen_gives lr f : forall (g : gengraph E1 E2) en g' en' l, calls o (gg_graph g) -> gen_drain f lr g en = Ok (g', en', Ret l) -> gives (gen_next_elements lr) g en l.
  Proof.
    induction f as [|f IH]; intros g en g' en' l C E; [discriminate|]. cbn [gen_drain] in E. apply bind_ok in E.
    destruct E as ([[g1 en1] r] & X & E). pose proof X as X0. unfold gen_next_elements, gen_next_indices in X.
    apply bind_ok in X. destruct X as ([[g2 en2] r2] & X & Y). apply bind_ok in X. destruct X as ([[p3 en3] r3] & X & Z). injection Z as <- <- <-.
    assert (C' : calls o p3) by (eapply c_next_corr; eauto).
    destruct r as [xy|x].
    - apply bind_ok in E. destruct E as ([[g4 en4] [l2|x]] & E4 & E); [|discriminate]. injection E as -> -> <-.
      eapply g_one; eauto. destruct r3 as [ab|x]; injection Y as <- <- _; eapply IH; eauto; destruct g; exact C'.
    - destruct x; try discriminate E. injection E as -> -> <-. eapply g_end; eauto.
      destruct r3 as [ab|x]; injection Y as <- <- Y; [exfalso; eapply format_no_stop; exact Y|]. subst x.
      unfold next_correspondence in X. apply bind_ok in X. destruct X as ([[p2 en2] [c|x]] & X & D).
      + apply bind_ok in D. destruct D as (y & D & F). injection F as _ _ ->. exfalso. exact (decode_no_stop _ c D).
      + injection D as -> -> ->. pose proof (exhausted_stays o n adj _ lr en p3 en3 M C X lr p3 (c_start _)) as ST.
        unfold gen_next_elements, gen_next_indices, next_correspondence. destruct g as [gG]; cbn [gg_graph with_graph] in *. rewrite ST. reflexivity.
  Qed.

  Lemma gen_copies_share lr (g : gengraph E1 E2) en f g' en' l ops : calls o (gg_graph g) -> gen_drain f lr g en = Ok (g', en', Ret l) -> well_named 1 ops ->
    exists q h, run_iters (gen_next_elements lr) ops g (mkHs [en] [0]) = Ok (q, h, results (steps ops) l).
  Proof. intros C E W. apply (gives_run (gen_next_elements lr) ops 1 g en l); auto. eapply gen_gives; eauto. Qed.
End Graph.

Section NWGraph.
  Variables (rnd : Z -> Z) (o : pynw) (n : nat) (adj : nat -> nat -> Prop) (w : list Z).
  Hypothesis M : nmade rnd o n adj w.

  Lemma nw_drain_gives lr f : forall p en p' en' l, ncalls rnd o p -> nw_drain rnd f lr p en = Ok (p', en', l) -> gives (nw_next_clique rnd lr) p en l.
  Proof.
    induction f as [|f IH]; intros p en p' en' l C E; [discriminate|]. cbn [nw_drain] in E. apply bind_ok in E.
    destruct E as ([[p1 en1] [c|x]] & E1 & E).
    - apply bind_ok in E. destruct E as ([[p2 en2] l2] & E2 & E). injection E as -> -> <-. eapply g_one; eauto. eapply IH; eauto. eapply nc_next; eauto.
    - injection E as -> -> <-. rewrite (nw_next_raises _ _ _ _ _ _ _ E1) in E1. eapply g_end; eauto.
      eapply nexhausted_stays; eauto. apply nc_start.
  Qed.

  Lemma nw_copies_share lr p en f p' en' l ops : ncalls rnd o p -> nw_drain rnd f lr p en = Ok (p', en', l) -> well_named 1 ops ->
    exists q h, run_iters (nw_next_clique rnd lr) ops p (mkHs [en] [0]) = Ok (q, h, results (steps ops) l).
  Proof. intros C E W. apply (gives_run (nw_next_clique rnd lr) ops 1 p en l); auto. eapply nw_drain_gives; eauto. Qed.

  Lemma nw_corr_gives lr n2 f : forall p en p' en' l, ncalls rnd o p -> nw_corr_drain rnd f lr n2 p en = Ok (p', en', Ret l) -> gives (nw_next_correspondence rnd lr n2) p en l.
  Proof.
    induction f as [|f IH]; intros p en p' en' l C E; [discriminate|]. cbn [nw_corr_drain] in E. apply bind_ok in E.
    destruct E as ([[p1 en1] [c|x]] & E1 & E).
    - apply bind_ok in E. destruct E as ([[p2 en2] [l2|x]] & E2 & E); [|discriminate]. injection E as -> -> <-.
      eapply g_one; eauto. eapply IH; eauto. eapply nc_next_corr; eauto.
    - destruct x; try discriminate E. injection E as -> -> <-. eapply g_end; eauto.
      unfold nw_next_correspondence in *. apply bind_ok in E1. destruct E1 as ([[p2 en2] [c|x]] & E1 & E).
      + apply bind_ok in E. destruct E as (y & D & E). injection E as -> -> ->. exfalso. exact (decode_no_stop n2 c D).
      + injection E as -> -> ->. rewrite (nexhausted_stays rnd o n adj w p lr en p' en' M C E1 lr p' (nc_start _ _)). reflexivity.
  Qed.

  Lemma nw_corr_copies_share lr n2 p en f p' en' l ops : ncalls rnd o p -> nw_corr_drain rnd f lr n2 p en = Ok (p', en', Ret l) -> well_named 1 ops ->
    exists q h, run_iters (nw_next_correspondence rnd lr n2) ops p (mkHs [en] [0]) = Ok (q, h, results (steps ops) l).
  Proof. intros C E W. apply (gives_run (nw_next_correspondence rnd lr n2) ops 1 p en l); auto. eapply nw_corr_gives; eauto. Qed.
End NWGraph.
