(** SpecFile: what from_file needs to find after the header of a file (C57). *)
From Verif Require Import Base Spec.
Local Open Scope nat_scope.

(** The text starts with a u64 in decimal, perhaps with a sign, and something other than white space follows it. *)
Definition two_fields (body : list nat) : Prop := exists pre sign s k rest,
  body = pre ++ sign ++ s ++ rest /\ Forall blank pre /\ (sign = [] \/ sign = [43] \/ sign = [45]) /\ numeral s k
  /\ match rest with c :: _ => ~ digit_char c | [] => True end
  /\ exists c, In c rest /\ ~ blank c.

(** The edge lines and nothing else than white space after them. The last one may end with the file. *)
Inductive only_lines : list (nat * nat) -> list nat -> Prop :=
| ol_none ws : Forall blank ws -> only_lines [] ws
| ol_last pre s1 g s2 t u v : Forall blank pre -> numeral s1 u -> gap g -> numeral s2 v -> trailer t ->
    only_lines [(u, v)] (pre ++ s1 ++ g ++ s2 ++ t)
| ol_line pre s1 g s2 t u v rows rest : Forall blank pre -> numeral s1 u -> gap g -> numeral s2 v -> trailer t ->
    only_lines rows rest -> only_lines ((u, v) :: rows) (pre ++ s1 ++ g ++ s2 ++ t ++ newline :: rest).
