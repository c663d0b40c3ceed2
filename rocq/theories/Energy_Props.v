(** Property C57. *)
From Coq Require Import List String Ascii Bool Reals Lra.
From Verif Require Import SMap Energy_Model Energy_Spec Energy_Proofs.
Import ListNotations.
Open Scope string_scope.

(** The energy converted to a number is the sum of the components. *)
Theorem C57_total_is_sum_of_components : forall E, E_total E = lsum (map snd E).
Proof. exact total_lsum. Qed.
Print Assumptions C57_total_is_sum_of_components.

(** Names are compared without regard to case (ieq), as all strings in the code.
    Accumulating into a component changes the total and that component by exactly that amount,
    and no other component. *)
Theorem C57_accumulate_component : forall E k v, sorted E ->
  E_total (E_acc E k v) = (E_total E + v)%R /\ E_get (E_acc E k v) k = (E_get E k + v)%R /\
  (forall k', ~ ieq k' k -> E_get (E_acc E k v) k' = E_get E k') /\ sorted (E_acc E k v).
Proof. exact (fun E k v H => conj (acc_total E k v H) (conj (acc_get_same E k v H) (conj (fun k' Hk => acc_get_other E k k' v Hk) (acc_sorted E k v H)))). Qed.
Print Assumptions C57_accumulate_component.

Theorem C57_set_component : forall E k v, sorted E ->
  E_total (E_put E k v) = (E_total E - E_get E k + v)%R /\ sorted (E_put E k v).
Proof. exact (fun E k v H => conj (put_total E k v H) (put_sorted E k v H)). Qed.
Print Assumptions C57_set_component.

(** Assigning or accumulating a plain number. *)
Theorem C57_scalar_assign_and_accumulate : forall E v, sorted E ->
  E_total (E_assign E v) = v /\ E_total (E_accScalar E v) = (E_total E + v)%R.
Proof. exact (fun E v H => conj (assign_total E v) (acc_total E "default" v H)). Qed.
Print Assumptions C57_scalar_assign_and_accumulate.

(** The printed lines add up to the total, whether or not zero components are skipped; no
    name is printed twice and lines are in increasing order of name. *)
Theorem C57_printed_lines_sum_to_total : forall E nonzeroOnly,
  lsum (map snd (E_print E nonzeroOnly)) = E_total E /\ sorted (E_print E nonzeroOnly) /\ NoDup (keys (E_print E nonzeroOnly)).
Proof.
  exact (fun E nz => conj (proj1 (proj2 (print_props E nz))) (conj (proj1 (print_props E nz)) (sorted_NoDup _ (proj1 (print_props E nz))))).
Qed.
Print Assumptions C57_printed_lines_sum_to_total.

(** Each printed line is the sum of the components whose name is the printed name followed by
    digits and dashes, and every non-zero component contributes to some line. *)
Theorem C57_printed_line_value : forall E nonzeroOnly n v, In (n, v) (E_print E nonzeroOnly) ->
  v = lsum (map snd (filter (fun e => ieqb (baseName (fst e)) n) E)) /\
  exists k, In k (keys E) /\ n = baseName k.
Proof. exact (fun E nz n v H => conj (print_value E nz n v H) (print_keys E nz n v H)). Qed.
Print Assumptions C57_printed_line_value.

Theorem C57_nonzero_components_printed : forall E nonzeroOnly e, In e E -> snd e <> 0%R ->
  exists n, ieq (baseName (fst e)) n /\ In n (keys (E_print E nonzeroOnly)).
Proof. exact (fun E nz e H1 H2 => print_covers_gen nz E [] e H1 H2). Qed.
Print Assumptions C57_nonzero_components_printed.

(** The printed name is the longest prefix not ending in a digit or dash. *)
Theorem C57_printed_name : forall s,
  ends_without isIndexChar (baseName s) /\ exists t, s = String.append (baseName s) t /\ all_chars isIndexChar t.
Proof. exact (fun s => conj (baseName_ends s) (baseName_split s)). Qed.
Print Assumptions C57_printed_name.

Example C57_example : baseName "Fmix-12" = "Fmix" /\ baseName "A_diel" = "A_diel" /\ baseName "0-1" = "" /\
  sorted (E_acc (E_acc (E_acc [] "Ewald" 1) "Exc-1" 2) "Exc-2" 4).
Proof. repeat split. repeat apply acc_sorted. apply nil_sorted. Qed.
Example C57_example_print : map fst (E_print (E_acc (E_acc (E_acc [] "Ewald" 1) "Exc-1" 2) "Exc-2" 4) false) = ["Ewald"; "Exc"].
Proof. reflexivity. Qed.
