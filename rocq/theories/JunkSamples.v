(** JunkSamples: a program on the sample NWGraph. *)
From Verif Require Import Base MUtils MGraph MApi MNW MNWEnum MNWApi Spec SpecNW SpecRound NWSamples SpecJunk.
Local Open Scope nat_scope.

Definition junk_en : nenum := match nw_all_cliques nw_env wsample 5%Z with Ret en => en | _ => new_nenum [] 0%Z end.
Definition junk_run : pynw * nenum * list (list nat) := match nw_drain half_even 20 true wsample junk_en with Ok r => r | _ => (new_pynw, junk_en, []) end.
Definition junk_mid : pynw := fst (fst junk_run).
Definition junk_end : pynw := match nw_get_max_clique half_even nw_env junk_mid 1%Z 100%Z true true with Ok (q, _) => q | _ => new_pynw end.

Lemma junk_new : nw_all_cliques nw_env wsample 5%Z = Ret junk_en.
Proof. vm_compute. reflexivity. Qed.

Lemma junk_list : nw_drain half_even 20 true wsample junk_en = Ok (junk_mid, snd (fst junk_run), [[4; 5]; [5; 6]]).
Proof. vm_compute. reflexivity. Qed.

Lemma junk_get : nw_get_max_clique half_even nw_env junk_mid 1%Z 100%Z true true = Ok (junk_end, Ret [4; 5; 6]).
Proof. vm_compute. reflexivity. Qed.

Lemma junk_saw : saw half_even nw_env wsample ([] ++ [WList 5%Z] ++ [WGet 1%Z 100%Z true true]) junk_end ([] ++ [SawList [[4; 5]; [5; 6]]] ++ [SawClique (Ret [4; 5; 6])]).
Proof. rewrite !app_assoc. eapply saw_get; [eapply saw_list; [apply saw_none|exact junk_new|exact junk_list]|exact junk_get]. Qed.
